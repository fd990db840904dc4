(** Algebra of polynomials in x, y, z (lists of terms).  Two polynomials are equal ([==]) when every
    linear functional given by its values on the monomials takes the same value on both. *)
Require Import List Reals ZArith Bool Arith Lra Lia Setoid Morphisms Ring.
Require Import Verif.Base Verif.RSum Verif.Symbolic_Model.
Import ListNotations.
Open Scope R_scope.

Definition lin (w : key3 -> R) (p : poly3) : R := fold_right (fun t acc => fst t * w (snd t) + acc) 0 p.

Definition peq (p q : poly3) : Prop := forall w, lin w p = lin w q.
Infix "==" := peq (at level 70).

Lemma peq_refl : forall p, p == p. Proof. intros p w. reflexivity. Qed.
Lemma peq_sym : forall p q, p == q -> q == p. Proof. intros p q H w. symmetry. apply H. Qed.
Lemma peq_trans : forall p q r, p == q -> q == r -> p == r. Proof. intros p q r H1 H2 w. rewrite H1. apply H2. Qed.
Global Instance peq_equiv : Equivalence peq.
Proof. split; [exact peq_refl|exact peq_sym|exact peq_trans]. Qed.

Lemma lin_nil : forall w, lin w [] = 0. Proof. reflexivity. Qed.
Lemma lin_cons : forall w t p, lin w (t :: p) = fst t * w (snd t) + lin w p. Proof. reflexivity. Qed.
Lemma lin_app : forall w p q, lin w (p ++ q) = lin w p + lin w q.
Proof. intros w p q; induction p as [|t p IH]; simpl; [ring|]. rewrite IH. ring. Qed.
Lemma lin_add : forall w p q, lin w (p3_add p q) = lin w p + lin w q. Proof. exact lin_app. Qed.
Lemma lin_scal : forall w c p, lin w (p3_scal c p) = c * lin w p.
Proof.
  intros w c p; unfold p3_scal, pscal; induction p as [|t p IH]; cbn [map]; [cbn; ring|]. rewrite !lin_cons, IH. cbn [fst snd]. ring.
Qed.

Lemma lin_ext : forall w w' p, (forall k, w k = w' k) -> lin w p = lin w' p.
Proof. intros w w' p H; induction p as [|t p IH]; simpl; [reflexivity|]. now rewrite IH, H. Qed.
Lemma lin_ext_in : forall w w' p, (forall k, In k (map snd p) -> w k = w' k) -> lin w p = lin w' p.
Proof.
  intros w w' p; induction p as [|t p IH]; simpl; intros H; [reflexivity|].
  rewrite IH by (intros; apply H; right; assumption). rewrite (H (snd t)) by (left; reflexivity). reflexivity.
Qed.
Lemma lin_w_plus : forall w w' p, lin (fun k => w k + w' k) p = lin w p + lin w' p.
Proof. intros w w' p; induction p as [|t p IH]; simpl; [ring|]. rewrite IH. ring. Qed.
Lemma lin_w_scal : forall c w p, lin (fun k => c * w k) p = c * lin w p.
Proof. intros c w p; induction p as [|t p IH]; simpl; [ring|]. rewrite IH. ring. Qed.
Lemma lin_w_scal_r : forall c w p, lin (fun k => w k * c) p = lin w p * c.
Proof. intros c w p; induction p as [|t p IH]; simpl; [ring|]. rewrite IH. ring. Qed.
Lemma lin_w_zero : forall p, lin (fun _ => 0) p = 0.
Proof. intros p; induction p as [|t p IH]; simpl; [ring|]. rewrite IH. ring. Qed.
Lemma lin_w_sum : forall n f p, lin (fun k => rsum n (fun i => f i k)) p = rsum n (fun i => lin (f i) p).
Proof.
  intros n f p; induction n as [|n IH]; simpl; [apply lin_w_zero|]. rewrite lin_w_plus, IH. reflexivity.
Qed.

(** Double linear functionals commute. *)
Lemma lin_swap : forall w p q, lin (fun k => lin (fun k' => w k k') q) p = lin (fun k' => lin (fun k => w k k') p) q.
Proof.
  intros w p q; induction p as [|t p IH]; simpl; [now rewrite lin_w_zero|].
  rewrite lin_w_plus, lin_w_scal, IH. reflexivity.
Qed.

(** * Operations on monomials, extended linearly *)

(** [plift f p]: every monomial k is replaced by the polynomial f k. *)
Definition plift (f : key3 -> poly3) (p : poly3) : poly3 := flat_map (fun t => p3_scal (fst t) (f (snd t))) p.

Lemma lin_lift : forall w f p, lin w (plift f p) = lin (fun k => lin w (f k)) p.
Proof.
  intros w f p; induction p as [|t p IH]; [reflexivity|]. unfold plift. cbn [flat_map].
  rewrite lin_app, lin_scal. unfold plift in IH. rewrite IH. reflexivity.
Qed.

Lemma plift_ext : forall f g p, (forall k, f k == g k) -> plift f p == plift g p.
Proof. intros f g p H w. rewrite !lin_lift. apply lin_ext. intros k. apply H. Qed.

Lemma plift_proper_r : forall f p q, p == q -> plift f p == plift f q.
Proof. intros f p q H w. rewrite !lin_lift. apply H. Qed.

Lemma plift_add : forall f p q, plift f (p3_add p q) == p3_add (plift f p) (plift f q).
Proof. intros f p q w. now rewrite lin_add, !lin_lift, lin_add. Qed.

Lemma plift_scal : forall f c p, plift f (p3_scal c p) == p3_scal c (plift f p).
Proof. intros f c p w. now rewrite lin_scal, !lin_lift, lin_scal. Qed.

Definition mono (k : key3) : poly3 := [(1, k)].
Lemma lin_mono : forall w k, lin w (mono k) = w k. Proof. intros. cbn. ring. Qed.

Lemma plift_mono : forall f k, plift f (mono k) == f k.
Proof. intros f k w. now rewrite lin_lift, lin_mono. Qed.

Lemma plift_id : forall p, plift mono p == p.
Proof. intros p w. rewrite lin_lift. apply lin_ext. intros k. apply lin_mono. Qed.

(** An identity between linear operations holds when it holds for the monomials. *)
Lemma by_monomials : forall (F G : poly3 -> poly3) f g,
  (forall p, F p == plift f p) -> (forall p, G p == plift g p) ->
  (forall k, f k == g k) -> forall p, F p == G p.
Proof. intros F G f g HF HG H p. rewrite HF, HG. now apply plift_ext. Qed.

(** * Multiplication *)

Lemma lin_mul : forall w p q, lin w (p3_mul p q) = lin (fun k => lin (fun k' => w (key3_mul k k')) q) p.
Proof.
  intros w p q; induction p as [|t p IH]; [reflexivity|]. unfold p3_mul, pmul. cbn [flat_map]. rewrite lin_app.
  unfold p3_mul, pmul in IH. rewrite IH, lin_cons. f_equal. clear IH.
  induction q as [|u q IH]; simpl; [ring|]. simpl in IH. rewrite IH. ring.
Qed.

Lemma key3_mul_comm : forall a b, key3_mul a b = key3_mul b a.
Proof. intros [[a b] c] [[a' b'] c']. unfold key3_mul. f_equal; [f_equal|]; lia. Qed.
Lemma key3_mul_assoc : forall a b c, key3_mul a (key3_mul b c) = key3_mul (key3_mul a b) c.
Proof. intros [[a b] c] [[a' b'] c'] [[a'' b''] c'']. unfold key3_mul. f_equal; [f_equal|]; lia. Qed.
Lemma key3_mul_1 : forall k, key3_mul (0, 0, 0)%nat k = k.
Proof. intros [[a b] c]. reflexivity. Qed.

Definition pzero : poly3 := [].
Definition pone : poly3 := p3_const 1.
Definition popp (p : poly3) : poly3 := p3_scal (-1) p.
Definition psub (p q : poly3) : poly3 := p3_add p (popp q).

Lemma pmul_comm : forall p q, p3_mul p q == p3_mul q p.
Proof.
  intros p q w. rewrite !lin_mul, lin_swap. apply lin_ext. intros k. apply lin_ext. intros k'. now rewrite key3_mul_comm.
Qed.

Lemma pmul_assoc : forall p q r, p3_mul p (p3_mul q r) == p3_mul (p3_mul p q) r.
Proof.
  intros p q r w. rewrite !lin_mul. apply lin_ext. intros k. rewrite lin_mul. apply lin_ext. intros k'.
  apply lin_ext. intros k''. now rewrite key3_mul_assoc.
Qed.

Lemma lin_const : forall w c, lin w (p3_const c) = c * w (0, 0, 0)%nat.
Proof. intros. cbn. ring. Qed.

Lemma pmul_const : forall c p, p3_mul (p3_const c) p == p3_scal c p.
Proof. intros c p w. rewrite lin_mul, lin_const, lin_scal. f_equal. apply lin_ext. intros k. now rewrite key3_mul_1. Qed.

Lemma pscal_1 : forall p, p3_scal 1 p == p. Proof. intros p w. rewrite lin_scal. ring. Qed.
Lemma pmul_1 : forall p, p3_mul pone p == p. Proof. intros p. unfold pone. rewrite pmul_const. apply pscal_1. Qed.

Lemma pmul_add_l : forall p q r, p3_mul (p3_add p q) r == p3_add (p3_mul p r) (p3_mul q r).
Proof. intros p q r w. now rewrite lin_add, !lin_mul, lin_add. Qed.

Global Instance padd_proper : Proper (peq ==> peq ==> peq) p3_add.
Proof. intros p p' Hp q q' Hq w. now rewrite !lin_add, Hp, Hq. Qed.
Global Instance pmul_proper : Proper (peq ==> peq ==> peq) p3_mul.
Proof. intros p p' Hp q q' Hq w. rewrite !lin_mul, Hp. apply lin_ext. intros k. apply Hq. Qed.
Global Instance pscal_proper : Proper (eq ==> peq ==> peq) p3_scal.
Proof. intros c c' <- p p' Hp w. now rewrite !lin_scal, Hp. Qed.
Global Instance popp_proper : Proper (peq ==> peq) popp.
Proof. intros p p' Hp. unfold popp. now rewrite Hp. Qed.
Global Instance psub_proper : Proper (peq ==> peq ==> peq) psub.
Proof. intros p p' Hp q q' Hq. unfold psub. now rewrite Hp, Hq. Qed.
Global Instance plift_proper : forall f, Proper (peq ==> peq) (plift f).
Proof. intros f p q H. now apply plift_proper_r. Qed.
Global Instance lin_proper : forall w, Proper (peq ==> eq) (lin w).
Proof. intros w p q H. apply H. Qed.

Lemma poly_ring_theory : ring_theory pzero pone p3_add p3_mul psub popp peq.
Proof.
  split.
  - intros p w. rewrite lin_add. cbn. ring.
  - intros p q w. rewrite !lin_add. ring.
  - intros p q r w. rewrite !lin_add. ring.
  - exact pmul_1.
  - exact pmul_comm.
  - exact pmul_assoc.
  - exact pmul_add_l.
  - reflexivity.
  - intros p w. unfold popp. rewrite lin_add, lin_scal. cbn. ring.
Qed.

Lemma poly_ring_ext : ring_eq_ext p3_add p3_mul popp peq.
Proof. split; [exact padd_proper|exact pmul_proper|exact popp_proper]. Qed.

(** Constants, for the ring tactic. *)
Lemma const_add : forall a b, p3_const (a + b) == p3_add (p3_const a) (p3_const b).
Proof. intros a b w. rewrite lin_add, !lin_const. ring. Qed.
Lemma const_mul : forall a b, p3_const (a * b) == p3_mul (p3_const a) (p3_const b).
Proof. intros a b w. rewrite pmul_const, lin_scal, !lin_const. ring. Qed.
Lemma scal_mul : forall c p, p3_scal c p == p3_mul (p3_const c) p.
Proof. intros. now rewrite pmul_const. Qed.

Add Ring poly_ring : poly_ring_theory (setoid peq_equiv poly_ring_ext).

Lemma ppow_0 : forall p, p3_pow p 0 = pone. Proof. reflexivity. Qed.
Lemma ppow_S : forall p n, p3_pow p (S n) = p3_mul p (p3_pow p n). Proof. reflexivity. Qed.
Global Instance ppow_proper : Proper (peq ==> eq ==> peq) p3_pow.
Proof. intros p q H n m <-. induction n as [|n IH]; [reflexivity|]. now rewrite !ppow_S, IH, H. Qed.
Lemma ppow_add : forall p n m, p3_pow p (n + m) == p3_mul (p3_pow p n) (p3_pow p m).
Proof. intros p n m; induction n as [|n IH]; cbn [Nat.add]; [rewrite ppow_0; ring|]. rewrite !ppow_S, IH. ring. Qed.

(** Powers of the coordinates. *)
Lemma mono_mul : forall k k', p3_mul (mono k) (mono k') == mono (key3_mul k k').
Proof. intros k k' w. rewrite lin_mul, !lin_mono. reflexivity. Qed.
Lemma pow_x : forall n, p3_pow p3_x n == mono (n, 0, 0)%nat.
Proof. induction n as [|n IH]; [reflexivity|]. rewrite ppow_S, IH. change p3_x with (mono (1, 0, 0)%nat). rewrite mono_mul. reflexivity. Qed.
Lemma pow_y : forall n, p3_pow p3_y n == mono (0, n, 0)%nat.
Proof. induction n as [|n IH]; [reflexivity|]. rewrite ppow_S, IH. change p3_y with (mono (0, 1, 0)%nat). rewrite mono_mul. reflexivity. Qed.
Lemma pow_z : forall n, p3_pow p3_z n == mono (0, 0, n)%nat.
Proof. induction n as [|n IH]; [reflexivity|]. rewrite ppow_S, IH. change p3_z with (mono (0, 0, 1)%nat). rewrite mono_mul. reflexivity. Qed.
Lemma mono_split : forall a b c, mono (a, b, c) == p3_mul (p3_pow p3_x a) (p3_mul (p3_pow p3_y b) (p3_pow p3_z c)).
Proof. intros. rewrite pow_x, pow_y, pow_z, !mono_mul. cbn. now rewrite !Nat.add_0_r. Qed.

(** Sums. *)
Lemma flat_map_seq_S : forall (f : nat -> poly3) n, flat_map f (seq 0 (S n)) = flat_map f (seq 0 n) ++ f n.
Proof. intros. rewrite seq_S, flat_map_app. cbn. now rewrite app_nil_r. Qed.
Lemma lin_sum : forall w n f, lin w (p3_sum n f) = rsum n (fun i => lin w (f i)).
Proof.
  intros w n f; induction n as [|n IH]; [reflexivity|]. unfold p3_sum in *. rewrite flat_map_seq_S, lin_app, IH. reflexivity.
Qed.
Lemma psum_0 : forall f, p3_sum 0 f = pzero. Proof. reflexivity. Qed.
Lemma psum_S : forall n f, p3_sum (S n) f == p3_add (p3_sum n f) (f n).
Proof. intros n f w. rewrite lin_add, !lin_sum. reflexivity. Qed.
Lemma psum_ext : forall n f g, (forall i, (i < n)%nat -> f i == g i) -> p3_sum n f == p3_sum n g.
Proof. intros n f g H w. rewrite !lin_sum. apply rsum_ext. intros i Hi. now apply H. Qed.
Lemma psum_add : forall n f g, p3_sum n (fun i => p3_add (f i) (g i)) == p3_add (p3_sum n f) (p3_sum n g).
Proof. intros n f g w. rewrite lin_add, !lin_sum, <- rsum_plus. apply rsum_ext. intros. apply lin_add. Qed.
Lemma psum_scal : forall n c f, p3_sum n (fun i => p3_scal c (f i)) == p3_scal c (p3_sum n f).
Proof. intros n c f w. rewrite lin_scal, !lin_sum, <- rsum_scal_l. apply rsum_ext. intros. apply lin_scal. Qed.
Lemma psum_mul_l : forall n p f, p3_sum n (fun i => p3_mul p (f i)) == p3_mul p (p3_sum n f).
Proof.
  intros n p f; induction n as [|n IH]; [rewrite !psum_0; ring|]. rewrite !psum_S, IH. ring.
Qed.
Lemma psum_mul_r : forall n p f, p3_sum n (fun i => p3_mul (f i) p) == p3_mul (p3_sum n f) p.
Proof. intros n p f; induction n as [|n IH]; [rewrite !psum_0; ring|]. rewrite !psum_S, IH. ring. Qed.
Lemma plift_sum : forall g n f, plift g (p3_sum n f) == p3_sum n (fun i => plift g (f i)).
Proof. intros g n f w. rewrite lin_lift, !lin_sum. apply rsum_ext. intros. now rewrite lin_lift. Qed.
Lemma psum_S_l : forall n f, p3_sum (S n) f == p3_add (f 0%nat) (p3_sum n (fun i => f (S i))).
Proof. intros n f w. rewrite lin_add, !lin_sum. apply rsum_S_l. Qed.
Lemma psum_zero : forall n f, (forall i, (i < n)%nat -> f i == pzero) -> p3_sum n f == pzero.
Proof. intros n f H w. rewrite lin_sum. apply rsum_zero. intros i Hi. now rewrite (H i Hi w). Qed.

(** * Evaluation *)

Definition mono_at (v : R * R * R) (k : key3) : R :=
  let '(x, y, z) := v in let '(a, b, c) := k in x ^ a * y ^ b * z ^ c.
Definition peval (p : poly3) (v : R * R * R) : R := lin (mono_at v) p.

Lemma mono_at_mul : forall v k k', mono_at v (key3_mul k k') = mono_at v k * mono_at v k'.
Proof. intros [[x y] z] [[a b] c] [[a' b'] c']. cbn. rewrite !pow_add. ring. Qed.
Lemma peval_add : forall p q v, peval (p3_add p q) v = peval p v + peval q v. Proof. intros. apply lin_add. Qed.
Lemma peval_scal : forall c p v, peval (p3_scal c p) v = c * peval p v. Proof. intros. apply lin_scal. Qed.
Lemma peval_mul : forall p q v, peval (p3_mul p q) v = peval p v * peval q v.
Proof.
  intros p q v. unfold peval. rewrite lin_mul, <- lin_w_scal_r. apply lin_ext. intros k. rewrite <- lin_w_scal.
  apply lin_ext. intros k'. apply mono_at_mul.
Qed.
Lemma peval_const : forall c v, peval (p3_const c) v = c.
Proof. intros c [[x y] z]. unfold peval. rewrite lin_const. unfold mono_at. cbn [pow]. ring. Qed.
Lemma peval_pow : forall p n v, peval (p3_pow p n) v = peval p v ^ n.
Proof. intros p n v; induction n as [|n IH]; [apply peval_const|]. rewrite ppow_S, peval_mul, IH. reflexivity. Qed.
Lemma peval_sum : forall n f v, peval (p3_sum n f) v = rsum n (fun i => peval (f i) v).
Proof. intros. apply lin_sum. Qed.
Lemma peval_x : forall x y z, peval p3_x (x, y, z) = x. Proof. intros. cbv [peval lin fold_right fst snd mono_at p3_x p3_y p3_z p3_const mono]. cbn [pow]. ring. Qed.
Lemma peval_y : forall x y z, peval p3_y (x, y, z) = y. Proof. intros. cbv [peval lin fold_right fst snd mono_at p3_x p3_y p3_z p3_const mono]. cbn [pow]. ring. Qed.
Lemma peval_z : forall x y z, peval p3_z (x, y, z) = z. Proof. intros. cbv [peval lin fold_right fst snd mono_at p3_x p3_y p3_z p3_const mono]. cbn [pow]. ring. Qed.
Global Instance peval_proper : Proper (peq ==> eq ==> eq) peval.
Proof. intros p q H v v' <-. apply H. Qed.

(** * Coefficients *)

Definition delta (k k' : key3) : R := if key3_eq k' k then 1 else 0.

Lemma coef_lin : forall p k, p3_coef p k = lin (delta k) p.
Proof.
  intros p k. unfold p3_coef, pcoef, delta, rsum_list. induction p as [|[c k'] p IH]; [reflexivity|]. cbn [filter snd].
  destruct (key3_eq k' k) as [E|E]; cbn [map fst fold_right]; rewrite lin_cons; cbn [fst snd];
    destruct (key3_eq k' k) as [E'|E']; try contradiction; rewrite <- IH; ring.
Qed.
Global Instance coef_proper : Proper (peq ==> eq ==> eq) p3_coef.
Proof. intros p q H k k' <-. rewrite !coef_lin. apply H. Qed.

(** Sum over a list without repetitions that contains all monomials of p. *)
Definition lsum (w : key3 -> R) (ks : list key3) : R := fold_right (fun k acc => w k + acc) 0 ks.

Lemma lsum_plus : forall w w' ks, lsum (fun k => w k + w' k) ks = lsum w ks + lsum w' ks.
Proof. intros w w' ks; induction ks as [|k ks IH]; simpl; [ring|]. rewrite IH. ring. Qed.
Lemma lsum_zero : forall w ks, (forall k, In k ks -> w k = 0) -> lsum w ks = 0.
Proof.
  intros w ks; induction ks as [|k ks IH]; simpl; intros H; [reflexivity|].
  rewrite IH by (intros; apply H; right; assumption). rewrite H by (left; reflexivity). ring.
Qed.
Lemma lsum_ext : forall w w' ks, (forall k, In k ks -> w k = w' k) -> lsum w ks = lsum w' ks.
Proof.
  intros w w' ks; induction ks as [|k ks IH]; simpl; intros H; [reflexivity|].
  rewrite IH by (intros; apply H; right; assumption). rewrite (H k) by (left; reflexivity). reflexivity.
Qed.
Lemma lsum_delta : forall w ks k, NoDup ks -> In k ks -> lsum (fun k' => delta k' k * w k') ks = w k.
Proof.
  intros w ks k; induction ks as [|k' ks IH]; simpl; intros HN HI; [contradiction|]. inversion HN; subst.
  unfold delta at 1. destruct (key3_eq k k') as [->|E].
  - rewrite lsum_zero; [ring|]. intros k'' H''. unfold delta. destruct (key3_eq k' k'') as [->|]; [contradiction|ring].
  - destruct HI as [->|HI]; [contradiction|]. rewrite IH by assumption. ring.
Qed.

Lemma lin_coef : forall w p ks, NoDup ks -> (forall k, In k (map snd p) -> In k ks) ->
  lin w p = lsum (fun k => p3_coef p k * w k) ks.
Proof.
  intros w p ks HN; induction p as [|[c k] p IH]; intros HI.
  - symmetry. apply lsum_zero. intros k _. cbn. ring.
  - rewrite lin_cons. cbn [fst snd]. rewrite IH by (intros; apply HI; right; assumption).
    rewrite <- (lsum_delta w ks k HN) by (apply HI; left; reflexivity).
    transitivity (lsum (fun k' => c * (delta k' k * w k') + p3_coef p k' * w k') ks).
    + rewrite lsum_plus. f_equal. clear. induction ks as [|k' ks IH]; simpl; [ring|]. rewrite <- IH. ring.
    + apply lsum_ext. intros k' _. rewrite !coef_lin, lin_cons. cbn [fst snd]. ring.
Qed.

(** Polynomials with the same coefficients are equal. *)
Lemma peq_coef : forall p q, (forall k, p3_coef p k = p3_coef q k) -> p == q.
Proof.
  intros p q H w. set (ks := nodup key3_eq (map snd p ++ map snd q)).
  assert (HN : NoDup ks) by apply NoDup_nodup.
  rewrite (lin_coef w p ks HN) by (intros k Hk; apply nodup_In, in_or_app; left; exact Hk).
  rewrite (lin_coef w q ks HN) by (intros k Hk; apply nodup_In, in_or_app; right; exact Hk).
  apply lsum_ext. intros k _. now rewrite H.
Qed.

(** * Homogeneous polynomials *)

Definition homogeneous (d : nat) (p : poly3) : Prop := forall t, In t p -> key3_deg (snd t) = d.

(** Up to equality. *)
Definition hom (d : nat) (p : poly3) : Prop := exists q, p == q /\ homogeneous d q.

Lemma key3_deg_mul : forall k k', key3_deg (key3_mul k k') = (key3_deg k + key3_deg k')%nat.
Proof. intros [[a b] c] [[a' b'] c']. cbn. lia. Qed.

Lemma homogeneous_add : forall d p q, homogeneous d p -> homogeneous d q -> homogeneous d (p3_add p q).
Proof. intros d p q Hp Hq t Ht. apply in_app_or in Ht as [Ht|Ht]; auto. Qed.
Lemma homogeneous_scal : forall d c p, homogeneous d p -> homogeneous d (p3_scal c p).
Proof. intros d c p Hp t Ht. unfold p3_scal, pscal in Ht. apply in_map_iff in Ht as [u [<- Hu]]. cbn. auto. Qed.
Lemma homogeneous_mul : forall d e p q, homogeneous d p -> homogeneous e q -> homogeneous (d + e) (p3_mul p q).
Proof.
  intros d e p q Hp Hq t Ht. unfold p3_mul, pmul in Ht. apply in_flat_map in Ht as [u [Hu Ht]].
  apply in_map_iff in Ht as [u' [<- Hu']]. cbn [snd]. rewrite key3_deg_mul, (Hp u Hu), (Hq u' Hu'). reflexivity.
Qed.
Lemma homogeneous_const : forall c, homogeneous 0 (p3_const c).
Proof. intros c t [<-|[]]. reflexivity. Qed.
Lemma homogeneous_pow : forall d p n, homogeneous d p -> homogeneous (n * d) (p3_pow p n).
Proof.
  intros d p n Hp; induction n as [|n IH]; [apply homogeneous_const|]. rewrite ppow_S. cbn [Nat.mul]. now apply homogeneous_mul.
Qed.
Lemma homogeneous_sum : forall d n f, (forall i, (i < n)%nat -> homogeneous d (f i)) -> homogeneous d (p3_sum n f).
Proof.
  intros d n f H t Ht. unfold p3_sum in Ht. apply in_flat_map in Ht as [i [Hi Ht]]. apply in_seq in Hi. apply (H i); [lia|exact Ht].
Qed.
Lemma homogeneous_x : homogeneous 1 p3_x. Proof. intros t [<-|[]]. reflexivity. Qed.
Lemma homogeneous_y : homogeneous 1 p3_y. Proof. intros t [<-|[]]. reflexivity. Qed.
Lemma homogeneous_z : homogeneous 1 p3_z. Proof. intros t [<-|[]]. reflexivity. Qed.
Lemma homogeneous_lift : forall d e f p, homogeneous d p -> (forall k, key3_deg k = d -> homogeneous e (f k)) -> homogeneous e (plift f p).
Proof.
  intros d e f p Hp Hf t Ht. unfold plift in Ht. apply in_flat_map in Ht as [u [Hu Ht]].
  apply (homogeneous_scal e (fst u) (f (snd u))) in Ht; [exact Ht|]. apply Hf. now apply Hp.
Qed.

Lemma peval_homogeneous : forall d p s x y z, homogeneous d p -> peval p (s * x, s * y, s * z) = s ^ d * peval p (x, y, z).
Proof.
  intros d p s x y z Hp. unfold peval. rewrite <- lin_w_scal. apply lin_ext_in. intros [[a b] c] Hk.
  apply in_map_iff in Hk as [t [E Ht]]. specialize (Hp t Ht). rewrite E in Hp. cbn in *. subst d.
  rewrite !pow_add, !Rpow_mult_distr. ring.
Qed.

Lemma coef_homogeneous : forall d p k, homogeneous d p -> key3_deg k <> d -> p3_coef p k = 0.
Proof.
  intros d p k Hp Hk. rewrite coef_lin. rewrite <- (lin_w_zero p). apply lin_ext_in. intros k' Hk'.
  apply in_map_iff in Hk' as [t [E Ht]]. specialize (Hp t Ht). unfold delta. destruct (key3_eq k' k) as [->|]; [|reflexivity]. congruence.
Qed.
