(** Partial derivatives, the Laplacian, linear substitutions and the Fischer inner product of
    polynomials in x, y, z. *)
Require Import List Reals ZArith Bool Arith Lra Lia Setoid Morphisms Ring.
Require Import Verif.Base Verif.RSum Verif.Symbolic_Model Verif.Poly_Proofs.
Import ListNotations.
Open Scope R_scope.

(** Coordinates by number. *)
Definition pvar (i : nat) : poly3 := match i with O => p3_x | S O => p3_y | _ => p3_z end.

(** A property of all polynomials from the constants, sums and products with a coordinate. *)
Lemma poly_ind : forall P : poly3 -> Prop,
  (forall p q, p == q -> P p -> P q) -> (forall p q, P p -> P q -> P (p3_add p q)) ->
  (forall c p, P p -> P (p3_scal c p)) -> P pone -> (forall i p, (i < 3)%nat -> P p -> P (p3_mul (pvar i) p)) ->
  forall p, P p.
Proof.
  intros P Heq Hadd Hscal H1 Hvar.
  assert (Hm : forall k, P (mono k)).
  { intros [[a b] c]. apply (Heq _ _ (peq_sym _ _ (mono_split a b c))).
    assert (Hz : forall n, P (p3_pow p3_z n)).
    { induction n as [|n IH]; [exact H1|]. rewrite ppow_S. apply (Hvar 2%nat); [lia|exact IH]. }
    assert (Hy : forall m, P (p3_mul (p3_pow p3_y m) (p3_pow p3_z c))).
    { induction m as [|m IH]; [apply (Heq (p3_pow p3_z c)); [rewrite ppow_0; ring|apply Hz]|].
      apply (Heq (p3_mul (pvar 1) (p3_mul (p3_pow p3_y m) (p3_pow p3_z c)))); [rewrite ppow_S; unfold pvar; ring|]. apply Hvar; [lia|exact IH]. }
    induction a as [|n IH]; [apply (Heq (p3_mul (p3_pow p3_y b) (p3_pow p3_z c))); [rewrite ppow_0; ring|apply Hy]|].
    apply (Heq (p3_mul (pvar 0) (p3_mul (p3_pow p3_x n) (p3_mul (p3_pow p3_y b) (p3_pow p3_z c))))); [rewrite ppow_S; unfold pvar; ring|]. apply Hvar; [lia|exact IH]. }
  induction p as [|[c k] p IH].
  - apply (Heq (p3_scal 0 pone)); [intros w; rewrite lin_scal; cbn; ring|]. now apply Hscal.
  - apply (Heq (p3_add (p3_scal c (mono k)) p)).
    + intros w. rewrite lin_add, lin_scal, lin_mono, lin_cons. reflexivity.
    + apply Hadd; [apply Hscal, Hm|exact IH].
Qed.

(** * Partial derivatives *)

Definition dkey (i : nat) (k : key3) : R * key3 :=
  let '(a, b, c) := k in
  match i with
  | O => (INR a, (pred a, b, c))
  | S O => (INR b, (a, pred b, c))
  | _ => (INR c, (a, b, pred c))
  end.
Definition pd (i : nat) (p : poly3) : poly3 := plift (fun k => [dkey i k]) p.

Lemma lin_pd : forall w i p, lin w (pd i p) = lin (fun k => fst (dkey i k) * w (snd (dkey i k))) p.
Proof. intros w i p. unfold pd. rewrite lin_lift. apply lin_ext. intros k. cbn. ring. Qed.

Global Instance pd_proper : Proper (eq ==> peq ==> peq) pd.
Proof. intros i j <- p q H. unfold pd. now rewrite H. Qed.

Lemma pd_add : forall i p q, pd i (p3_add p q) == p3_add (pd i p) (pd i q). Proof. intros. apply plift_add. Qed.
Lemma pd_scal : forall i c p, pd i (p3_scal c p) == p3_scal c (pd i p). Proof. intros. apply plift_scal. Qed.
Lemma pd_sum : forall i n f, pd i (p3_sum n f) == p3_sum n (fun j => pd i (f j)). Proof. intros. apply plift_sum. Qed.

Lemma dkey_mul : forall w i k k',
  fst (dkey i (key3_mul k k')) * w (snd (dkey i (key3_mul k k')))
  = fst (dkey i k) * w (key3_mul (snd (dkey i k)) k') + fst (dkey i k') * w (key3_mul k (snd (dkey i k'))).
Proof.
  intros w i [[a b] c] [[a' b'] c'].
  assert (E : forall n n' (f : nat -> R), INR (n + n') * f (pred (n + n')) = INR n * f (pred n + n')%nat + INR n' * f (n + pred n')%nat).
  { intros [|n] [|n'] f; cbn [Nat.add pred].
    - cbn [INR]; ring.
    - change (INR 0) with 0. ring.
    - rewrite Nat.add_0_r. change (INR 0) with 0. ring.
    - replace (n + S n')%nat with (S (n + n')) by lia. cbn [pred].
      replace (f (S (n + n'))) with (f (n + S n')%nat) by (f_equal; lia). rewrite !S_INR, plus_INR. ring. }
  destruct i as [|[|i]]; cbn [dkey key3_mul fst snd].
  - apply (E a a' (fun n => w (n, b + b', c + c')%nat)).
  - apply (E b b' (fun n => w (a + a', n, c + c')%nat)).
  - apply (E c c' (fun n => w (a + a', b + b', n)%nat)).
Qed.

Lemma pd_mul : forall i p q, pd i (p3_mul p q) == p3_add (p3_mul (pd i p) q) (p3_mul p (pd i q)).
Proof.
  intros i p q w. rewrite lin_add, lin_pd, !lin_mul, lin_pd, <- lin_w_plus. apply lin_ext. intros k.
  rewrite lin_pd. rewrite <- lin_w_scal, <- lin_w_plus. apply lin_ext. intros k'. apply dkey_mul.
Qed.

Definition kron (i j : nat) : R := if Nat.eq_dec i j then 1 else 0.

Lemma pd_const : forall i c, pd i (p3_const c) == pzero.
Proof. intros i c w. rewrite lin_pd, lin_const. destruct i as [|[|i]]; cbn; ring. Qed.
Lemma pd_one : forall i, pd i pone == pzero. Proof. intros. apply pd_const. Qed.
Lemma pd_zero : forall i, pd i pzero == pzero. Proof. reflexivity. Qed.

Lemma pd_var : forall i j, (i < 3)%nat -> (j < 3)%nat -> pd i (pvar j) == p3_const (kron i j).
Proof.
  intros i j Hi Hj w. rewrite lin_pd, lin_const.
  destruct i as [|[|[|i]]]; try lia; destruct j as [|[|[|j]]]; try lia; cbn; ring.
Qed.

Lemma pd_var_mul : forall i j p, (i < 3)%nat -> (j < 3)%nat ->
  pd i (p3_mul (pvar j) p) == p3_add (p3_scal (kron i j) p) (p3_mul (pvar j) (pd i p)).
Proof. intros i j p Hi Hj. rewrite pd_mul, pd_var, scal_mul by assumption. reflexivity. Qed.

Lemma pd_comm : forall i j p, pd i (pd j p) == pd j (pd i p).
Proof.
  intros i j p w. rewrite !lin_pd. apply lin_ext. intros [[a b] c].
  destruct i as [|[|i]], j as [|[|j]]; cbn [dkey fst snd]; ring.
Qed.

Lemma pd_pow : forall i p n, pd i (p3_pow p (S n)) == p3_scal (INR (S n)) (p3_mul (p3_pow p n) (pd i p)).
Proof.
  intros i p n; induction n as [|n IH].
  - rewrite ppow_S, pd_mul, !ppow_0, pd_one. cbn [INR]. rewrite pscal_1. ring.
  - rewrite ppow_S, pd_mul, IH. rewrite (S_INR (S n)), !scal_mul, const_add. change (p3_const 1) with pone. rewrite ppow_S. ring.
Qed.

Definition lap (p : poly3) : poly3 := p3_add (p3_add (pd 0 (pd 0 p)) (pd 1 (pd 1 p))) (pd 2 (pd 2 p)).
Global Instance lap_proper : Proper (peq ==> peq) lap.
Proof. intros p q H. unfold lap. now rewrite H. Qed.
Lemma lap_add : forall p q, lap (p3_add p q) == p3_add (lap p) (lap q).
Proof. intros. unfold lap. rewrite !pd_add. ring. Qed.
Lemma lap_scal : forall c p, lap (p3_scal c p) == p3_scal c (lap p).
Proof. intros. unfold lap. rewrite !pd_scal, !scal_mul. ring. Qed.
Lemma lap_sum : forall n f, lap (p3_sum n f) == p3_sum n (fun j => lap (f j)).
Proof. intros. unfold lap. rewrite !pd_sum, !psum_add. reflexivity. Qed.

(** Euler's identity: x ∂x p + y ∂y p + z ∂z p = d p. *)
Lemma euler : forall d p, homogeneous d p ->
  p3_add (p3_add (p3_mul p3_x (pd 0 p)) (p3_mul p3_y (pd 1 p))) (p3_mul p3_z (pd 2 p)) == p3_scal (INR d) p.
Proof.
  intros d p Hp w. rewrite !lin_add, lin_scal.
  change p3_x with (mono (1, 0, 0)%nat). change p3_y with (mono (0, 1, 0)%nat). change p3_z with (mono (0, 0, 1)%nat).
  rewrite !lin_mul, !lin_mono, !lin_pd, <- !lin_w_plus, <- lin_w_scal. apply lin_ext_in. intros [[a b] c] Hk.
  apply in_map_iff in Hk as [t [E Ht]]. specialize (Hp t Ht). rewrite E in Hp. cbn [key3_deg] in Hp. subst d.
  cbn [dkey fst snd key3_mul Nat.add]. rewrite !plus_INR.
  assert (G : forall n (f : nat -> R), INR n * f (S (pred n)) = INR n * f n) by (intros [|n] f; [cbn; ring|reflexivity]).
  rewrite (G a (fun n => w (n, b, c))), (G b (fun n => w (a, n, c))), (G c (fun n => w (a, b, n))). ring.
Qed.

(** The Laplacian of r^2 p. *)
Lemma lap_r2 : forall p, lap (p3_mul sh_r2 p)
  == p3_add (p3_mul sh_r2 (lap p))
     (p3_add (p3_scal 6 p)
       (p3_scal 4 (p3_add (p3_add (p3_mul p3_x (pd 0 p)) (p3_mul p3_y (pd 1 p))) (p3_mul p3_z (pd 2 p))))).
Proof.
  intros p. unfold lap.
  assert (D : forall i, (i < 3)%nat -> pd i sh_r2 == p3_scal 2 (pvar i)).
  { intros i Hi w. unfold sh_r2. rewrite lin_pd, !lin_add, lin_scal. rewrite pow_x, pow_y, pow_z, !lin_mono.
    destruct i as [|[|[|i]]]; try lia; cbn; ring. }
  assert (E : forall i q, (i < 3)%nat -> pd i (pd i (p3_mul sh_r2 q)) == p3_add (p3_mul sh_r2 (pd i (pd i q)))
            (p3_add (p3_scal 2 q) (p3_scal 4 (p3_mul (pvar i) (pd i q))))).
  { intros i q Hi. rewrite pd_mul, D, pd_add, !pd_mul, D, pd_scal, pd_var by assumption.
    assert (K : kron i i = 1) by (unfold kron; destruct (Nat.eq_dec i i); [reflexivity|congruence]).
    rewrite K, !scal_mul. change (p3_const 1) with pone.
    assert (C4 : p3_const 4 == p3_add (p3_const 2) (p3_const 2)) by (rewrite <- const_add; replace (2 + 2) with 4 by ring; reflexivity).
    rewrite C4. ring. }
  rewrite !E by lia. rewrite !scal_mul. unfold pvar.
  assert (C6 : p3_const 6 == p3_add (p3_const 2) (p3_add (p3_const 2) (p3_const 2))) by (rewrite <- !const_add; replace (2 + (2 + 2)) with 6 by ring; reflexivity).
  rewrite C6. ring.
Qed.

Lemma lap_r2_hom : forall d p, homogeneous d p ->
  lap (p3_mul sh_r2 p) == p3_add (p3_mul sh_r2 (lap p)) (p3_scal (6 + 4 * INR d) p).
Proof. intros d p Hp. rewrite lap_r2, (euler d p Hp), !scal_mul, const_add, const_mul. ring. Qed.

(** * Degrees of derivatives *)
Lemma homogeneous_pd : forall d i p, homogeneous (S d) p -> hom d (pd i p).
Proof.
  intros d i p Hp. exists (filter (fun t => negb (rzero (fst t))) (pd i p)). split.
  - intros w. induction (pd i p) as [|t q IH]; [reflexivity|]. cbn [filter]. unfold rzero at 1.
    destruct (Req_EM_T (fst t) 0) as [E|E]; cbn [negb]; rewrite !lin_cons; [rewrite E, IH; ring|now rewrite IH].
  - intros t Ht. apply filter_In in Ht as [Ht Hz]. unfold pd, plift in Ht. apply in_flat_map in Ht as [u [Hu Ht]].
    specialize (Hp u Hu). destruct Ht as [<-|[]]. cbn [fst snd] in *. unfold rzero in Hz.
    destruct (Req_EM_T (fst u * fst (dkey i (snd u))) 0) as [E|E]; [discriminate|].
    destruct (snd u) as [[a b] c]. cbn in Hp. destruct i as [|[|i]]; cbn [dkey fst snd key3_deg] in *.
    + destruct a; [exfalso; apply E; cbn; ring|cbn; lia].
    + destruct b; [exfalso; apply E; cbn; ring|cbn; lia].
    + destruct c; [exfalso; apply E; cbn; ring|cbn; lia].
Qed.

(** * Linear substitutions *)
Definition row (M : nat -> nat -> R) (i : nat) : poly3 :=
  p3_add (p3_add (p3_scal (M i 0%nat) p3_x) (p3_scal (M i 1%nat) p3_y)) (p3_scal (M i 2%nat) p3_z).
Definition psubst (M : nat -> nat -> R) (p : poly3) : poly3 :=
  plift (fun k => let '(a, b, c) := k in p3_mul (p3_pow (row M 0) a) (p3_mul (p3_pow (row M 1) b) (p3_pow (row M 2) c))) p.

Global Instance psubst_proper : forall M, Proper (peq ==> peq) (psubst M).
Proof. intros M p q H. unfold psubst. now rewrite H. Qed.
Lemma psubst_add : forall M p q, psubst M (p3_add p q) == p3_add (psubst M p) (psubst M q). Proof. intros. apply plift_add. Qed.
Lemma psubst_scal : forall M c p, psubst M (p3_scal c p) == p3_scal c (psubst M p). Proof. intros. apply plift_scal. Qed.
Lemma psubst_sum : forall M n f, psubst M (p3_sum n f) == p3_sum n (fun i => psubst M (f i)). Proof. intros. apply plift_sum. Qed.
Lemma psubst_one : forall M, psubst M pone == pone.
Proof. intros M. change pone with (mono (0, 0, 0)%nat) at 1. unfold psubst. rewrite plift_mono, !ppow_0. ring. Qed.

Lemma psubst_var_mul : forall M i p, (i < 3)%nat -> psubst M (p3_mul (pvar i) p) == p3_mul (row M i) (psubst M p).
Proof.
  intros M i p Hi w. unfold psubst. rewrite lin_lift.
  destruct i as [|[|[|i]]]; try lia; cbn [pvar].
  - change p3_x with (mono (1, 0, 0)%nat). rewrite lin_mul, lin_mono.
    rewrite (pmul_comm (row M 0)), lin_mul, lin_lift. apply lin_ext. intros [[a b] c]. cbn [key3_mul Nat.add].
    rewrite <- lin_mul. apply lin_proper. rewrite ppow_S. ring.
  - change p3_y with (mono (0, 1, 0)%nat). rewrite lin_mul, lin_mono.
    rewrite (pmul_comm (row M 1)), lin_mul, lin_lift. apply lin_ext. intros [[a b] c]. cbn [key3_mul Nat.add].
    rewrite <- lin_mul. apply lin_proper. rewrite ppow_S. ring.
  - change p3_z with (mono (0, 0, 1)%nat). rewrite lin_mul, lin_mono.
    rewrite (pmul_comm (row M 2)), lin_mul, lin_lift. apply lin_ext. intros [[a b] c]. cbn [key3_mul Nat.add].
    rewrite <- lin_mul. apply lin_proper. rewrite ppow_S. ring.
Qed.

Lemma psubst_mul : forall M p q, psubst M (p3_mul p q) == p3_mul (psubst M p) (psubst M q).
Proof.
  intros M p q. revert p. apply (poly_ind (fun p => psubst M (p3_mul p q) == p3_mul (psubst M p) (psubst M q))).
  - intros p p' E H. now rewrite <- E.
  - intros p p' H H'. rewrite pmul_add_l, !psubst_add, H, H'. ring.
  - intros c p H. rewrite scal_mul, <- pmul_assoc, <- !scal_mul, !psubst_scal, H, !scal_mul. ring.
  - rewrite pmul_1, psubst_one. ring.
  - intros i p Hi H. rewrite <- pmul_assoc, !psubst_var_mul, H by assumption. ring.
Qed.

Lemma psubst_const : forall M c, psubst M (p3_const c) == p3_const c.
Proof.
  intros M c. assert (E : p3_const c == p3_scal c pone) by (rewrite scal_mul; ring). rewrite E, psubst_scal, psubst_one. reflexivity.
Qed.

(** Evaluation after a substitution: the matrix acts on the column vector. *)
Definition mapply (M : nat -> nat -> R) (v : R * R * R) : R * R * R :=
  let '(x, y, z) := v in
  (M 0%nat 0%nat * x + M 0%nat 1%nat * y + M 0%nat 2%nat * z,
   M 1%nat 0%nat * x + M 1%nat 1%nat * y + M 1%nat 2%nat * z,
   M 2%nat 0%nat * x + M 2%nat 1%nat * y + M 2%nat 2%nat * z).

Lemma peval_row : forall M i x y z, peval (row M i) (x, y, z) = M i 0%nat * x + M i 1%nat * y + M i 2%nat * z.
Proof. intros. unfold row. rewrite !peval_add, !peval_scal, peval_x, peval_y, peval_z. reflexivity. Qed.

Lemma peval_subst : forall M p v, peval (psubst M p) v = peval p (mapply M v).
Proof.
  intros M p [[x y] z]. unfold psubst, peval at 1. rewrite lin_lift. unfold peval. apply lin_ext. intros [[a b] c].
  rewrite <- !(peval_row M) || idtac. change (peval (p3_mul (p3_pow (row M 0) a) (p3_mul (p3_pow (row M 1) b) (p3_pow (row M 2) c))) (x, y, z)
    = mono_at (mapply M (x, y, z)) (a, b, c)).
  rewrite !peval_mul, !peval_pow, !peval_row. cbn [mono_at mapply]. ring.
Qed.

Lemma homogeneous_row : forall M i, homogeneous 1 (row M i).
Proof.
  intros. unfold row. repeat apply homogeneous_add; apply homogeneous_scal; [apply homogeneous_x|apply homogeneous_y|apply homogeneous_z].
Qed.
Lemma homogeneous_subst : forall M d p, homogeneous d p -> homogeneous d (psubst M p).
Proof.
  intros M d p Hp. apply (homogeneous_lift d d _ p Hp). intros [[a b] c] <-. cbn [key3_deg].
  replace (a + b + c)%nat with (a * 1 + (b * 1 + c * 1))%nat by lia.
  apply homogeneous_mul; [|apply homogeneous_mul]; apply homogeneous_pow, homogeneous_row.
Qed.

(** Chain rule. *)
Definition sum3 (f : nat -> poly3) : poly3 := p3_add (p3_add (f 0%nat) (f 1%nat)) (f 2%nat).

Lemma pd_row : forall M i j, (j < 3)%nat -> pd j (row M i) == p3_const (M i j).
Proof.
  intros M i j Hj w. unfold row. rewrite lin_const. rewrite !pd_add, !pd_scal.
  change p3_x with (pvar 0). change p3_y with (pvar 1). change p3_z with (pvar 2).
  rewrite !pd_var by lia. rewrite !lin_add, !lin_scal, !lin_const.
  destruct j as [|[|[|j]]]; try lia; unfold kron; cbn [Nat.eq_dec]; repeat match goal with |- context [Nat.eq_dec ?a ?b] => destruct (Nat.eq_dec a b); try lia end; ring.
Qed.

Lemma chain : forall M j p, (j < 3)%nat -> pd j (psubst M p) == sum3 (fun i => p3_scal (M i j) (psubst M (pd i p))).
Proof.
  intros M j p Hj. revert p.
  apply (poly_ind (fun p => pd j (psubst M p) == sum3 (fun i => p3_scal (M i j) (psubst M (pd i p))))).
  - intros p q E H. rewrite <- E, H. unfold sum3. now rewrite E.
  - intros p q H H'. rewrite psubst_add, pd_add, H, H'. unfold sum3. rewrite !pd_add, !psubst_add, !scal_mul. ring.
  - intros c p H. rewrite psubst_scal, pd_scal, H. unfold sum3. rewrite !pd_scal, !psubst_scal, !scal_mul. ring.
  - rewrite psubst_one, pd_one. unfold sum3. rewrite !pd_one. assert (Z : psubst M pzero == pzero) by reflexivity.
    rewrite Z, !scal_mul. ring.
  - intros i p Hi H. rewrite psubst_var_mul, pd_mul, pd_row, H by assumption. unfold sum3.
    rewrite !pd_var_mul, !psubst_add, !psubst_scal, !psubst_var_mul by (assumption || lia). rewrite !scal_mul.
    destruct i as [|[|[|i]]]; try lia; unfold kron; repeat match goal with |- context [Nat.eq_dec ?a ?b] => destruct (Nat.eq_dec a b); try lia end;
      assert (Z : p3_const 0 == pzero) by (intros w; cbn; ring); rewrite !Z; change (p3_const 1) with pone; ring.
Qed.

(** Rows of M are orthonormal. *)
Definition orthonormal_rows (M : nat -> nat -> R) : Prop :=
  forall i k, (i < 3)%nat -> (k < 3)%nat -> M i 0%nat * M k 0%nat + M i 1%nat * M k 1%nat + M i 2%nat * M k 2%nat = kron i k.

Lemma sum3_ext : forall f g, (forall i, (i < 3)%nat -> f i == g i) -> sum3 f == sum3 g.
Proof. intros f g H. unfold sum3. rewrite !H by lia. reflexivity. Qed.

Lemma lap_subst : forall M p, orthonormal_rows M -> lap (psubst M p) == psubst M (lap p).
Proof.
  intros M p HO. unfold lap.
  assert (E : forall j, (j < 3)%nat -> pd j (pd j (psubst M p))
    == sum3 (fun i => sum3 (fun k => p3_scal (M i j * M k j) (psubst M (pd k (pd i p)))))).
  { intros j Hj. rewrite (chain M j p Hj). unfold sum3 at 1. rewrite !pd_add, !pd_scal, !(chain M j) by assumption.
    unfold sum3. rewrite !scal_mul, !const_mul. ring. }
  rewrite !E by lia.
  assert (S : forall i k, (i < 3)%nat -> (k < 3)%nat -> forall q,
    p3_add (p3_add (p3_scal (M i 0%nat * M k 0%nat) q) (p3_scal (M i 1%nat * M k 1%nat) q)) (p3_scal (M i 2%nat * M k 2%nat) q) == p3_scal (kron i k) q).
  { intros i k Hi Hk q w. rewrite !lin_add, !lin_scal. rewrite <- (HO i k Hi Hk). ring. }
  transitivity (sum3 (fun i => sum3 (fun k => p3_scal (kron i k) (psubst M (pd k (pd i p)))))).
  - transitivity (sum3 (fun i => sum3 (fun k =>
      p3_add (p3_add (p3_scal (M i 0%nat * M k 0%nat) (psubst M (pd k (pd i p)))) (p3_scal (M i 1%nat * M k 1%nat) (psubst M (pd k (pd i p))))) (p3_scal (M i 2%nat * M k 2%nat) (psubst M (pd k (pd i p))))))).
    + unfold sum3. rewrite !scal_mul. ring.
    + apply sum3_ext. intros i Hi. apply sum3_ext. intros k Hk. now apply S.
  - unfold sum3, kron; repeat match goal with |- context [Nat.eq_dec ?a ?b] => destruct (Nat.eq_dec a b); try lia end.
    rewrite !psubst_add, !scal_mul. assert (Z : p3_const 0 == pzero) by (intros w; cbn; ring); rewrite !Z; change (p3_const 1) with pone. ring.
Qed.

(** * The Fischer inner product: the coefficients of equal monomials, weighted with a! b! c! *)
Definition kfact (k : key3) : R := let '(a, b, c) := k in INR (fact a) * INR (fact b) * INR (fact c).
Definition fischer (p q : poly3) : R := lin (fun k => kfact k * p3_coef q k) p.

Lemma fischer_lin : forall p q, fischer p q = lin (fun k => lin (fun k' => kfact k * delta k k') q) p.
Proof. intros p q. unfold fischer. apply lin_ext. intros k. rewrite coef_lin, <- lin_w_scal. reflexivity. Qed.

Global Instance fischer_proper : Proper (peq ==> peq ==> eq) fischer.
Proof. intros p p' Hp q q' Hq. rewrite !fischer_lin, Hp. apply lin_ext. intros k. apply Hq. Qed.

Lemma fischer_sym : forall p q, fischer p q = fischer q p.
Proof.
  intros p q. rewrite !fischer_lin, lin_swap. apply lin_ext. intros k. apply lin_ext. intros k'. unfold delta.
  destruct (key3_eq k k') as [E|E]; destruct (key3_eq k' k) as [E'|E']; try (exfalso; congruence); [rewrite E; ring|ring].
Qed.

Lemma fischer_add_l : forall p q r, fischer (p3_add p q) r = fischer p r + fischer q r. Proof. intros. apply lin_add. Qed.
Lemma fischer_scal_l : forall c p q, fischer (p3_scal c p) q = c * fischer p q. Proof. intros. apply lin_scal. Qed.
Lemma fischer_add_r : forall p q r, fischer p (p3_add q r) = fischer p q + fischer p r.
Proof. intros. now rewrite fischer_sym, fischer_add_l, !(fischer_sym _ p). Qed.
Lemma fischer_scal_r : forall c p q, fischer p (p3_scal c q) = c * fischer p q.
Proof. intros. now rewrite fischer_sym, fischer_scal_l, fischer_sym. Qed.
Lemma fischer_sum_l : forall n f q, fischer (p3_sum n f) q = rsum n (fun i => fischer (f i) q). Proof. intros. apply lin_sum. Qed.
Lemma fischer_sum_r : forall n f q, fischer q (p3_sum n f) = rsum n (fun i => fischer q (f i)).
Proof. intros. rewrite fischer_sym, fischer_sum_l. apply rsum_ext. intros. apply fischer_sym. Qed.
Lemma fischer_zero_r : forall p, fischer p pzero = 0.
Proof. intros. rewrite fischer_sym. reflexivity. Qed.
Lemma fischer_mono : forall k q, fischer (mono k) q = kfact k * p3_coef q k.
Proof. intros. unfold fischer. now rewrite lin_mono. Qed.

(** Multiplication by a coordinate is adjoint to the derivative. *)
Lemma coef_pd : forall i k q, (i < 3)%nat ->
  kfact k * p3_coef (pd i q) k = kfact (key3_mul (match i with O => (1, 0, 0) | S O => (0, 1, 0) | _ => (0, 0, 1) end)%nat k)
    * p3_coef q (key3_mul (match i with O => (1, 0, 0) | S O => (0, 1, 0) | _ => (0, 0, 1) end)%nat k).
Proof.
  intros i [[a b] c] q Hi. rewrite !coef_lin, lin_pd, <- !lin_w_scal. apply lin_ext. intros [[a' b'] c'].
  assert (D : forall x y : key3, delta x y = if key3_eq y x then 1 else 0) by reflexivity.
  assert (F : forall n, INR (fact (S n)) = INR (S n) * INR (fact n)) by (intros n; rewrite <- mult_INR; reflexivity).
  destruct i as [|[|[|i]]]; try lia; cbn [dkey fst snd key3_mul Nat.add kfact]; rewrite !D.
  - destruct a' as [|a']; cbn [pred].
    + change (INR 0) with 0. destruct (key3_eq (0, b', c')%nat (S a, b, c)) as [E|_]; [injection E; lia|ring].
    + destruct (key3_eq (a', b', c') (a, b, c)) as [E|E]; destruct (key3_eq (S a', b', c') (S a, b, c)) as [E'|E'].
      * injection E as -> -> ->. rewrite F. ring.
      * exfalso. apply E'. injection E as -> -> ->. reflexivity.
      * exfalso. apply E. injection E' as -> -> ->. reflexivity.
      * ring.
  - destruct b' as [|b']; cbn [pred].
    + change (INR 0) with 0. destruct (key3_eq (a', 0, c')%nat (a, S b, c)) as [E|_]; [injection E; lia|ring].
    + destruct (key3_eq (a', b', c') (a, b, c)) as [E|E]; destruct (key3_eq (a', S b', c') (a, S b, c)) as [E'|E'].
      * injection E as -> -> ->. rewrite F. ring.
      * exfalso. apply E'. injection E as -> -> ->. reflexivity.
      * exfalso. apply E. injection E' as -> -> ->. reflexivity.
      * ring.
  - destruct c' as [|c']; cbn [pred].
    + change (INR 0) with 0. destruct (key3_eq (a', b', 0)%nat (a, b, S c)) as [E|_]; [injection E; lia|ring].
    + destruct (key3_eq (a', b', c') (a, b, c)) as [E|E]; destruct (key3_eq (a', b', S c') (a, b, S c)) as [E'|E'].
      * injection E as -> -> ->. rewrite F. ring.
      * exfalso. apply E'. injection E as -> -> ->. reflexivity.
      * exfalso. apply E. injection E' as -> -> ->. reflexivity.
      * ring.
Qed.

Lemma fischer_var : forall i p q, (i < 3)%nat -> fischer (p3_mul (pvar i) p) q = fischer p (pd i q).
Proof.
  intros i p q Hi. unfold fischer.
  assert (E : pvar i = mono (match i with O => (1, 0, 0) | S O => (0, 1, 0) | _ => (0, 0, 1) end)%nat).
  { destruct i as [|[|[|i]]]; try lia; reflexivity. }
  rewrite E, lin_mul, lin_mono. apply lin_ext. intros k. symmetry. now apply coef_pd.
Qed.

Lemma fischer_r2 : forall p q, fischer (p3_mul sh_r2 p) q = fischer p (lap q).
Proof.
  intros p q. unfold lap. rewrite !fischer_add_r.
  rewrite <- (fischer_var 0 p (pd 0 q)), <- (fischer_var 1 p (pd 1 q)), <- (fischer_var 2 p (pd 2 q)) by lia.
  rewrite <- (fischer_var 0 _ q), <- (fischer_var 1 _ q), <- (fischer_var 2 _ q) by lia.
  rewrite <- !fischer_add_l. apply fischer_proper; [|reflexivity]. unfold sh_r2, pvar. rewrite !ppow_S, !ppow_0. ring.
Qed.

(** Invariance under orthogonal substitutions. *)
Lemma fischer_one : forall M q, fischer pone (psubst M q) = fischer pone q.
Proof.
  intros M q. change pone with (mono (0, 0, 0)%nat). rewrite !fischer_mono. f_equal. rewrite !coef_lin.
  assert (E : forall p, lin (delta (0, 0, 0)%nat) p = peval p (0, 0, 0)).
  { intros p. unfold peval. apply lin_ext. intros [[a b] c]. unfold delta.
    destruct (key3_eq (a, b, c) (0, 0, 0)%nat) as [E|E].
    - injection E as -> -> ->. cbn. ring.
    - cbn. destruct a; [destruct b; [destruct c; [congruence|]|]|]; cbn; ring. }
  rewrite !E, peval_subst. f_equal. cbn. repeat f_equal; ring.
Qed.

Lemma fischer_row : forall M i p q, fischer (p3_mul (row M i) p) q
  = M i 0%nat * fischer p (pd 0 q) + M i 1%nat * fischer p (pd 1 q) + M i 2%nat * fischer p (pd 2 q).
Proof.
  intros M i p q. rewrite <- !fischer_var by lia. rewrite <- !fischer_scal_l, <- !fischer_add_l.
  apply fischer_proper; [|reflexivity]. unfold row, pvar. rewrite !scal_mul. ring.
Qed.

Lemma fischer_subst : forall M p q, orthonormal_rows M -> fischer (psubst M p) (psubst M q) = fischer p q.
Proof.
  intros M p q HO. revert p q.
  apply (poly_ind (fun p => forall q, fischer (psubst M p) (psubst M q) = fischer p q)).
  - intros p p' E H q. rewrite <- E. apply H.
  - intros p p' H H' q. rewrite psubst_add, !fischer_add_l, H, H'. reflexivity.
  - intros c p H q. rewrite psubst_scal, !fischer_scal_l, H. reflexivity.
  - intros q. rewrite psubst_one. apply fischer_one.
  - intros i p Hi H q. rewrite psubst_var_mul by assumption. rewrite fischer_row, !chain by lia. unfold sum3.
    rewrite !fischer_add_r, !fischer_scal_r, !H. rewrite fischer_var by assumption.
    pose proof (HO i 0%nat Hi ltac:(lia)) as H0. pose proof (HO i 1%nat Hi ltac:(lia)) as H1. pose proof (HO i 2%nat Hi ltac:(lia)) as H2.
    transitivity (kron i 0 * fischer p (pd 0 q) + kron i 1 * fischer p (pd 1 q) + kron i 2 * fischer p (pd 2 q)).
    + rewrite <- H0, <- H1, <- H2. ring.
    + unfold kron. destruct i as [|[|[|i]]]; try lia; repeat match goal with |- context [Nat.eq_dec ?a ?b] => destruct (Nat.eq_dec a b); try lia end; ring.
Qed.

(** A polynomial orthogonal to every polynomial is zero. *)
Lemma fischer_definite : forall p, (forall q, fischer q p = 0) -> p == pzero.
Proof.
  intros p H. apply peq_coef. intros k. specialize (H (mono k)). rewrite fischer_mono in H.
  change (p3_coef pzero k) with 0. apply Rmult_integral in H as [H|H]; [|exact H]. exfalso. destruct k as [[a b] c]. cbn in H.
  pose proof (lt_0_INR _ (lt_O_fact a)). pose proof (lt_0_INR _ (lt_O_fact b)). pose proof (lt_0_INR _ (lt_O_fact c)).
  assert (0 < INR (fact a) * INR (fact b) * INR (fact c)) by (repeat apply Rmult_lt_0_compat; assumption). lra.
Qed.
