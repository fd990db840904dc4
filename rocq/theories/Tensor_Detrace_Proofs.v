(** The components computed by [_traceless_tensor] are the harmonic parts of the monomials. *)
Require Import List Reals ZArith Bool Arith Lra Lia Setoid Morphisms Ring Field Permutation Sorting.Sorted.
Require Import Verif.Base Verif.RSum Verif.Common_Model Verif.Symbolic_Model Verif.Poly_Proofs Verif.PolyDiff_Proofs Verif.Harmonics_Proofs
  Verif.Tensor_Model Verif.Tensor_Index_Proofs.
Import ListNotations.
Open Scope R_scope.
Local Notation cwr := combinations_with_replacement.
Local Notation key3 := Symbolic_Model.key3.

Definition ek (i : nat) : key3 := match i with O => (1, 0, 0) | S O => (0, 1, 0) | _ => (0, 0, 1) end%nat.
Fixpoint keyof (t : list nat) : key3 := match t with [] => (0, 0, 0)%nat | i :: t => key3_mul (ek i) (keyof t) end.

Lemma keyof_deg : forall t, key3_deg (keyof t) = length t.
Proof.
  induction t as [|i t IH]; [reflexivity|]. cbn [keyof length]. rewrite key3_deg_mul, IH. destruct i as [|[|i]]; reflexivity.
Qed.
Lemma keyof_app : forall s t, keyof (s ++ t) = key3_mul (keyof s) (keyof t).
Proof. induction s as [|i s IH]; intros t; cbn [keyof app]; [now rewrite key3_mul_1|]. now rewrite IH, key3_mul_assoc. Qed.
Lemma keyof_perm : forall s t, Permutation s t -> keyof s = keyof t.
Proof.
  intros s t H. induction H as [|x s t H IH|x y s|s t u H IH H' IH']; cbn [keyof]; [reflexivity|now rewrite IH| |congruence].
  now rewrite !key3_mul_assoc, (key3_mul_comm (ek x)).
Qed.

(** * Sums over the splittings of an index tuple in two parts *)
Fixpoint splits (t : list nat) (F : key3 -> key3 -> R) : R :=
  match t with
  | [] => F (0, 0, 0)%nat (0, 0, 0)%nat
  | i :: t => splits t (fun c d => F (key3_mul (ek i) c) d) + splits t (fun c d => F c (key3_mul (ek i) d))
  end.

Lemma splits_ext : forall t F G, (forall c d, F c d = G c d) -> splits t F = splits t G.
Proof. induction t as [|i t IH]; intros F G H; cbn; [apply H|]. f_equal; apply IH; intros; apply H. Qed.
Lemma splits_plus : forall t F G, splits t (fun c d => F c d + G c d) = splits t F + splits t G.
Proof. induction t as [|i t IH]; intros F G; cbn; [reflexivity|]. rewrite !IH. ring. Qed.
Lemma splits_zero : forall t F, (forall c d, F c d = 0) -> splits t F = 0.
Proof. induction t as [|i t IH]; intros F H; cbn; [apply H|]. rewrite !IH; [ring| |]; intros; apply H. Qed.

Lemma dkey_ek : forall (F : key3 -> R) i b c, 
  fst (dkey i (key3_mul (ek b) c)) * F (snd (dkey i (key3_mul (ek b) c)))
  = fst (dkey i (ek b)) * F c + fst (dkey i c) * F (key3_mul (ek b) (snd (dkey i c))).
Proof.
  intros F i b c. rewrite dkey_mul. f_equal.
  destruct i as [|[|i]], b as [|[|b]]; cbn [dkey ek fst snd pred INR]; try ring; now rewrite ?key3_mul_1.
Qed.

(** Marking one chosen element of kind [i] is choosing all but one and marking the left over one. *)
Lemma splits_mark : forall t i F,
  splits t (fun c d => fst (dkey i c) * F (snd (dkey i c)) d) = splits t (fun c d => fst (dkey i d) * F c (snd (dkey i d))).
Proof.
  induction t as [|b t IH]; intros i F.
  - cbn. destruct i as [|[|i]]; cbn; ring.
  - cbn [splits].
    rewrite (splits_ext t (fun c d => fst (dkey i (key3_mul (ek b) c)) * F (snd (dkey i (key3_mul (ek b) c))) d)
      (fun c d => fst (dkey i (ek b)) * F c d + fst (dkey i c) * F (key3_mul (ek b) (snd (dkey i c))) d))
      by (intros c d; apply (dkey_ek (fun k => F k d))).
    rewrite (splits_ext t (fun c d => fst (dkey i (key3_mul (ek b) d)) * F c (snd (dkey i (key3_mul (ek b) d))))
      (fun c d => fst (dkey i (ek b)) * F c d + fst (dkey i d) * F c (key3_mul (ek b) (snd (dkey i d)))))
      by (intros c d; apply (dkey_ek (fun k => F c k))).
    rewrite !splits_plus.
    rewrite (IH i (fun c d => F (key3_mul (ek b) c) d)), (IH i (fun c d => F c (key3_mul (ek b) d))). ring.
Qed.

(** * Products of double factorials *)
Definition pairings1 (n : nat) : nat := if Nat.even n then factorial2 (n - 1) else 0%nat.
Definition pairings (k : key3) : R := let '(a, b, c) := k in INR (pairings1 a) * INR (pairings1 b) * INR (pairings1 c).

Lemma factorial2_SS : forall n, factorial2 (S (S n)) = (S (S n) * factorial2 n)%nat.
Proof. reflexivity. Qed.
Lemma factorial2_pos : forall n, (0 < factorial2 n)%nat.
Proof.
  intros n. assert (H : (0 < factorial2 n /\ 0 < factorial2 (S n))%nat); [|tauto].
  induction n as [|n [IH1 IH2]]; [cbn; lia|]. split; [exact IH2|]. rewrite factorial2_SS. nia.
Qed.

Lemma pairings1_S : forall n, pairings1 (S n) = (n * pairings1 (pred n))%nat.
Proof.
  intros [|[|n]]; [reflexivity|reflexivity|]. unfold pairings1. cbn [pred Nat.even].
  destruct n as [|n]; [reflexivity|]. change (Nat.even (S (S n))) with (Nat.even n).
  replace (S (S (S (S n))) - 1)%nat with (S (S (S n))) by lia. replace (S (S n) - 1)%nat with (S n) by lia.
  cbn [Nat.even]. destruct (Nat.even n); [|lia]. rewrite factorial2_SS. reflexivity.
Qed.

Lemma pairings_mul : forall i c, pairings (key3_mul (ek i) c) = fst (dkey i c) * pairings (snd (dkey i c)).
Proof.
  intros i [[a b] c]. destruct i as [|[|i]]; cbn [dkey ek fst snd pairings key3_mul Nat.add]; rewrite ?pairings1_S, ?mult_INR; ring.
Qed.

(** * The weighted sums are powers of the Laplacian *)
Definition weighted (k : nat) (w : key3 -> R) (t : list nat) : R :=
  splits t (fun c d => if (key3_deg c =? k)%nat then pairings c * w d else 0).

Lemma weighted_cons_0 : forall w i t, weighted 0 w (i :: t) = weighted 0 (fun d => w (key3_mul (ek i) d)) t.
Proof.
  intros w i t. unfold weighted. cbn [splits]. rewrite (splits_zero t); [ring|]. intros c d. rewrite key3_deg_mul.
  destruct i as [|[|i]]; reflexivity.
Qed.

Lemma weighted_cons : forall k w i t,
  weighted (S (S k)) w (i :: t) = weighted (S (S k)) (fun d => w (key3_mul (ek i) d)) t
    + weighted k (fun d => fst (dkey i d) * w (snd (dkey i d))) t.
Proof.
  intros k w i t. unfold weighted. cbn [splits]. rewrite Rplus_comm. f_equal.
  set (F := fun c d => if (key3_deg c =? k)%nat then pairings c * w d else 0 : R).
  transitivity (splits t (fun c d => fst (dkey i c) * F (snd (dkey i c)) d)).
  - apply splits_ext. intros c d. unfold F. rewrite pairings_mul, key3_deg_mul.
    destruct (Req_dec (fst (dkey i c)) 0) as [Z|Z]; [rewrite Z; destruct (Nat.eqb _ _); ring|].
    assert (E : key3_deg c = S (key3_deg (snd (dkey i c)))).
    { destruct c as [[x y] z]. destruct i as [|[|i]]; cbn [dkey fst snd key3_deg] in *;
      [destruct x|destruct y|destruct z]; cbn in Z |- *; try lra; lia. }
    rewrite E. replace (key3_deg (ek i) + S (key3_deg (snd (dkey i c))))%nat with (S (S (key3_deg (snd (dkey i c)))))
      by (destruct i as [|[|i]]; cbn [ek key3_deg]; lia).
    cbn [Nat.eqb]. destruct (Nat.eqb _ _); ring.
  - rewrite splits_mark. apply splits_ext. intros c d. unfold F. destruct (Nat.eqb _ _); ring.
Qed.

Fixpoint lapn (m : nat) (p : poly3) : poly3 := match m with O => p | S m => lap (lapn m p) end.
Global Instance lapn_proper : Proper (eq ==> peq ==> peq) lapn.
Proof. intros m m' <- p q H. induction m as [|m IH]; cbn [lapn]; [exact H|now rewrite IH]. Qed.
Lemma lapn_zero : forall m, lapn m pzero == pzero.
Proof. induction m as [|m IH]; cbn [lapn]; [apply peq_refl|]. rewrite IH. reflexivity. Qed.
Lemma lapn_S : forall m p, lapn (S m) p == lapn m (lap p).
Proof. induction m as [|m IH]; intros p; cbn [lapn]; [reflexivity|]. cbn [lapn] in IH. now rewrite IH. Qed.

Lemma lap_pvar : forall i p, (i < 3)%nat -> lap (p3_mul (pvar i) p) == p3_add (p3_mul (pvar i) (lap p)) (p3_scal 2 (pd i p)).
Proof.
  intros i p Hi. unfold lap. rewrite !(pd_var_mul _ i) by lia. rewrite !pd_add, !pd_scal. rewrite !(pd_var_mul _ i) by lia.
  assert (Z : p3_const 0 == pzero) by (intros w; rewrite lin_const; cbn; ring).
  assert (T2 : p3_const 2 == p3_add pone pone) by (intros w; unfold pone; rewrite lin_add, !lin_const; ring).
  rewrite !scal_mul, T2. destruct i as [|[|[|i]]]; [| | |lia]; unfold kron; cbn [Nat.eq_dec nat_rec nat_rect sumbool_rec sumbool_rect];
  fold pone; rewrite !Z; ring.
Qed.

Lemma pd_lap : forall i p, lap (pd i p) == pd i (lap p).
Proof. intros i p. unfold lap. rewrite !pd_add, !(pd_comm i). rewrite !(pd_comm _ i). reflexivity. Qed.
Lemma pd_lapn : forall m i p, lapn m (pd i p) == pd i (lapn m p).
Proof. induction m as [|m IH]; intros i p; cbn [lapn]; [reflexivity|]. now rewrite IH, pd_lap. Qed.

Lemma lapn_pvar : forall m i p, (i < 3)%nat ->
  lapn (S m) (p3_mul (pvar i) p) == p3_add (p3_mul (pvar i) (lapn (S m) p)) (p3_scal (2 * INR (S m)) (pd i (lapn m p))).
Proof.
  induction m as [|m IH]; intros i p Hi.
  - cbn [lapn]. rewrite lap_pvar by exact Hi. cbn [INR]. now replace (2 * 1) with 2 by ring.
  - change (lapn (S (S m)) (p3_mul (pvar i) p)) with (lap (lapn (S m) (p3_mul (pvar i) p))).
    rewrite IH by exact Hi. rewrite lap_add, lap_scal, pd_lap, lap_pvar by exact Hi.
    change (lap (lapn m p)) with (lapn (S m) p). change (lap (lapn (S m) p)) with (lapn (S (S m)) p).
    replace (2 * INR (S (S m))) with (2 + 2 * INR (S m)) by (rewrite (S_INR (S m)); ring).
    rewrite !scal_mul, const_add. ring.
Qed.

Lemma pvar_mono : forall i, pvar i = mono (ek i).
Proof. intros [|[|i]]; reflexivity. Qed.
Lemma mono_cons : forall i t, mono (keyof (i :: t)) == p3_mul (pvar i) (mono (keyof t)).
Proof. intros i t. rewrite pvar_mono, mono_mul. reflexivity. Qed.
Lemma lin_pvar_mul : forall w i q, lin w (p3_mul (pvar i) q) = lin (fun d => w (key3_mul (ek i) d)) q.
Proof. intros w i q. rewrite pvar_mono, lin_mul, lin_mono. reflexivity. Qed.

Lemma weighted_lapn : forall t m w, Forall (fun i => (i < 3)%nat) t ->
  weighted (2 * m) w t * (2 ^ m * INR (fact m)) = lin w (lapn m (mono (keyof t))).
Proof.
  induction t as [|i t IH]; intros m w Ht.
  - destruct m as [|m].
    + cbn. unfold weighted, splits. cbn. ring.
    + transitivity 0.
      * unfold weighted. cbn [splits]. replace (key3_deg (0, 0, 0) =? 2 * S m)%nat with false by reflexivity. ring.
      * rewrite lapn_S. assert (Z : lap (mono (keyof [])) == pzero).
        { change (mono (keyof [])) with pone. unfold lap. rewrite !pd_one. reflexivity. }
        rewrite Z, lapn_zero. reflexivity.
  - inversion Ht as [|? ? Hi Ht']; subst. rewrite mono_cons. destruct m as [|m].
    + cbn [lapn]. change (2 * 0)%nat with 0%nat. rewrite weighted_cons_0, lin_pvar_mul. apply (IH 0%nat _ Ht').
    + rewrite (lapn_pvar m i _ Hi w). rewrite lin_add, lin_scal, lin_pvar_mul, lin_pd.
      rewrite <- (IH (S m) _ Ht'), <- (IH m _ Ht').
      replace (2 * S m)%nat with (S (S (2 * m))) by lia. rewrite weighted_cons, INR_fact_S, S_INR. cbn [pow]. ring.
Qed.

(** * From combinations of positions to splittings *)
Definition csum {X : Type} (f : X -> R) (l : list X) : R := fold_right (fun x acc => f x + acc) 0 l.
Lemma csum_cons : forall X (f : X -> R) a l, csum f (a :: l) = f a + csum f l. Proof. reflexivity. Qed.
Lemma csum_app : forall X (f : X -> R) a b, csum f (a ++ b) = csum f a + csum f b.
Proof. intros X f a b. induction a as [|x a IH]; [cbn [app]; change (csum f []) with 0; ring|]. cbn [app]. rewrite !csum_cons, IH. ring. Qed.
Lemma csum_map : forall X Y (g : X -> Y) (f : Y -> R) l, csum f (map g l) = csum (fun x => f (g x)) l.
Proof. intros X Y g f l. induction l as [|x l IH]; [reflexivity|]. cbn [map]. now rewrite !csum_cons, IH. Qed.
Lemma csum_ext : forall X (f g : X -> R) l, (forall x, In x l -> f x = g x) -> csum f l = csum g l.
Proof.
  intros X f g l H. induction l as [|x l IH]; [reflexivity|]. rewrite !csum_cons, IH, H; auto using in_eq. intros y Hy. apply H. now right.
Qed.
Lemma csum_scal : forall X c (f : X -> R) l, csum (fun x => c * f x) l = c * csum f l.
Proof. intros X c f l. induction l as [|x l IH]; [cbn; ring|]. rewrite !csum_cons, IH. ring. Qed.

Lemma combinations_map : forall (g : nat -> nat) l k, combinations (map g l) k = map (map g) (combinations l k).
Proof.
  intros g l. induction l as [|a l IH]; intros [|k]; try reflexivity. cbn [map combinations]. rewrite !IH, map_app, !map_map. reflexivity.
Qed.
Lemma combinations_seq_S : forall n k, combinations (seq 1 n) k = map (map S) (combinations (seq 0 n) k).
Proof. intros n k. rewrite <- seq_shift. apply combinations_map. Qed.

Lemma chosen_S : forall a t c, chosen (a :: t) (map S c) = chosen t c.
Proof. intros a t c. unfold chosen. now rewrite map_map. Qed.
Lemma chosen_0S : forall a t c, chosen (a :: t) (0%nat :: map S c) = a :: chosen t c.
Proof. intros a t c. unfold chosen. cbn [map nth]. now rewrite map_map. Qed.
Lemma existsb_S : forall i c, existsb (Nat.eqb (S i)) (map S c) = existsb (Nat.eqb i) c.
Proof. intros i c. induction c as [|x c IH]; [reflexivity|]. cbn [map existsb]. now rewrite IH. Qed.
Lemma existsb_0 : forall c, existsb (Nat.eqb 0) (map S c) = false.
Proof. intros c. induction c as [|x c IH]; [reflexivity|]. exact IH. Qed.
Lemma filter_map_S : forall (f : nat -> bool) l, filter f (map S l) = map S (filter (fun i => f (S i)) l).
Proof. intros f l. induction l as [|a l IH]; [reflexivity|]. cbn [map filter]. rewrite IH. now destruct (f (S a)). Qed.

Lemma leftover_S : forall a t c, leftover (a :: t) (map S c) = a :: leftover t c.
Proof.
  intros a t c. unfold leftover. cbn [length seq filter]. rewrite existsb_0. cbn [negb map nth]. f_equal.
  rewrite <- seq_shift, filter_map_S, map_map. f_equal. apply filter_ext. intros i. now rewrite existsb_S.
Qed.
Lemma leftover_0S : forall a t c, leftover (a :: t) (0%nat :: map S c) = leftover t c.
Proof.
  intros a t c. unfold leftover. cbn [length seq].
  assert (E : filter (fun i => negb (existsb (Nat.eqb i) (0%nat :: map S c))) (0%nat :: seq 1 (length t))
    = filter (fun i => negb (existsb (Nat.eqb i) (0%nat :: map S c))) (seq 1 (length t))) by reflexivity.
  rewrite E, <- seq_shift, filter_map_S, map_map. cbn [nth]. f_equal. apply filter_ext. intros i.
  f_equal. change (existsb (Nat.eqb (S i)) (map S c) = existsb (Nat.eqb i) c). apply existsb_S.
Qed.
Lemma leftover_nil : forall t, leftover t [] = t.
Proof. induction t as [|a t IH]; [reflexivity|]. change (@nil nat) with (map S []) at 1. now rewrite leftover_S, IH. Qed.

Lemma splits_deg0 : forall t F, splits t (fun c d => if (key3_deg c =? 0)%nat then F c d else 0) = F (0, 0, 0)%nat (keyof t).
Proof.
  induction t as [|i t IH]; intros F; [reflexivity|]. cbn [splits keyof].
  rewrite (splits_zero t) by (intros c d; rewrite key3_deg_mul; destruct i as [|[|i]]; reflexivity).
  rewrite (IH (fun c d => F c (key3_mul (ek i) d))). ring.
Qed.

Lemma combinations_0 : forall l, combinations l 0 = [[]].
Proof. now destruct l. Qed.

Lemma combinations_splits : forall t k F,
  csum (fun c => F (keyof (chosen t c)) (keyof (leftover t c))) (combinations (seq 0 (length t)) k)
  = splits t (fun c d => if (key3_deg c =? k)%nat then F c d else 0).
Proof.
  induction t as [|a t IH]; intros [|k] F.
  - cbn. ring.
  - cbn. ring.
  - rewrite combinations_0, splits_deg0. rewrite csum_cons. rewrite leftover_nil. cbn. ring.
  - cbn [length seq combinations splits]. rewrite csum_app, csum_map, !combinations_seq_S, !csum_map. f_equal.
    + rewrite (splits_ext t _ (fun c d => if (key3_deg c =? k)%nat then F (key3_mul (ek a) c) d else 0)).
      * rewrite <- (IH k (fun c d => F (key3_mul (ek a) c) d)). apply csum_ext. intros c _. rewrite leftover_0S, chosen_0S. reflexivity.
      * intros c d. rewrite key3_deg_mul. destruct a as [|[|a]]; reflexivity.
    + rewrite <- (IH (S k) (fun c d => F c (key3_mul (ek a) d))). apply csum_ext. intros c _. rewrite leftover_S, chosen_S. reflexivity.
Qed.

Lemma combinations_parts : forall t k c, In c (combinations (seq 0 (length t)) k) -> Permutation (chosen t c ++ leftover t c) t /\ length (chosen t c) = k.
Proof.
  induction t as [|a t IH]; intros [|k] c H.
  - cbn in H. destruct H as [<-|[]]. now split.
  - destruct H.
  - rewrite combinations_0 in H. destruct H as [<-|[]]. rewrite leftover_nil. now split.
  - cbn [length seq combinations] in H. rewrite !combinations_seq_S in H. apply in_app_or in H as [H|H].
    + apply in_map_iff in H as (c' & <- & H). apply in_map_iff in H as (c'' & <- & H).
      apply IH in H as [P L]. rewrite leftover_0S, chosen_0S.
      split; [cbn [app]; now constructor|cbn; now rewrite L].
    + apply in_map_iff in H as (c' & <- & H). apply IH in H as [P L]. rewrite leftover_S, chosen_S. split; [|exact L].
      eapply Permutation_trans; [apply Permutation_sym, Permutation_middle|]. now constructor.
Qed.

(** * [multi_dirac_delta] *)
Definition weight1 (c : nat) : nat := if (c mod 2 =? 1)%nat then 0%nat else factorial2 (c - 1).

Lemma fold_mul_acc : forall l a, fold_left Nat.mul l a = (a * fold_right Nat.mul 1 l)%nat.
Proof. induction l as [|x l IH]; intros a; cbn; [lia|]. rewrite IH. lia. Qed.

Lemma mdd_product : forall t, multi_dirac_delta t = fold_right Nat.mul 1%nat (map (fun v => weight1 (count_occ Nat.eq_dec t v)) (nodup Nat.eq_dec t)).
Proof.
  intros t. unfold multi_dirac_delta. set (vs := nodup Nat.eq_dec t). set (f := count_occ Nat.eq_dec t).
  destruct (existsb (fun c => c mod 2 =? 1)%nat (map f vs)) eqn:E.
  - induction vs as [|v vs IH]; [discriminate|]. cbn [map existsb] in E. cbn [map fold_right]. unfold weight1 at 1.
    destruct (f v mod 2 =? 1)%nat; [reflexivity|]. rewrite <- IH by exact E. lia.
  - rewrite fold_mul_acc, Nat.mul_1_l. induction vs as [|v vs IH]; [reflexivity|]. cbn [map existsb] in E. apply orb_false_iff in E as [E1 E2].
    cbn [map fold_right]. rewrite IH by exact E2. unfold weight1. now rewrite E1.
Qed.

Lemma fold_mul_perm : forall l l', Permutation l l' -> fold_right Nat.mul 1%nat l = fold_right Nat.mul 1%nat l'.
Proof. intros l l' H. induction H; cbn; lia. Qed.

Lemma weight1_pairings : forall c, weight1 c = pairings1 c.
Proof.
  intros c. unfold weight1, pairings1. destruct (Nat.eqb_spec (c mod 2) 1) as [E|E]; destruct (Nat.even c) eqn:Ev; try reflexivity; exfalso.
  - apply Nat.even_spec in Ev as [k ->]. rewrite Nat.mul_comm, Nat.mod_mul in E by lia. lia.
  - assert (O : Nat.odd c = true) by (unfold Nat.odd; now rewrite Ev). apply Nat.odd_spec in O as [k ->].
    apply E. rewrite Nat.add_comm, Nat.mul_comm, Nat.mod_add by lia. reflexivity.
Qed.

Lemma keyof_count : forall t, Forall (fun i => (i < 3)%nat) t ->
  keyof t = (count_occ Nat.eq_dec t 0, count_occ Nat.eq_dec t 1, count_occ Nat.eq_dec t 2)%nat.
Proof.
  induction t as [|i t IH]; intros H; [reflexivity|]. inversion H as [|? ? Hi Ht]; subst. cbn [keyof]. rewrite (IH Ht).
  destruct i as [|[|[|i]]]; [| | |lia]; reflexivity.
Qed.

Lemma mdd_pairings : forall t, Forall (fun i => (i < 3)%nat) t -> INR (multi_dirac_delta t) = pairings (keyof t).
Proof.
  intros t Ht. rewrite mdd_product, (keyof_count t Ht). unfold pairings. rewrite <- !mult_INR, <- !weight1_pairings. f_equal.
  set (f := fun v => weight1 (count_occ Nat.eq_dec t v)).
  change (weight1 (count_occ Nat.eq_dec t 0%nat)) with (f 0%nat). change (weight1 (count_occ Nat.eq_dec t 1%nat)) with (f 1%nat).
  change (weight1 (count_occ Nat.eq_dec t 2%nat)) with (f 2%nat).
  assert (P : Permutation (nodup Nat.eq_dec t) (filter (fun v => if in_dec Nat.eq_dec v t then true else false) axes)).
  { apply NoDup_Permutation; [apply NoDup_nodup| |].
    - apply NoDup_filter. unfold axes. repeat (constructor; [cbn; lia|]). constructor.
    - intros v. rewrite nodup_In, filter_In, in_axes. rewrite Forall_forall in Ht. destruct (in_dec Nat.eq_dec v t) as [Hv|Hv].
      + split; [intros _; split; [now apply Ht|reflexivity]|intros _; exact Hv].
      + split; [intros H; contradiction|intros [_ H]; discriminate]. }
  rewrite (fold_mul_perm _ _ (Permutation_map f P)).
  assert (Z : forall v, ~ In v t -> f v = 1%nat).
  { intros v Hv. unfold f. rewrite (proj1 (count_occ_not_In Nat.eq_dec t v) Hv). reflexivity. }
  unfold axes. cbn [filter]. destruct (in_dec Nat.eq_dec 0%nat t), (in_dec Nat.eq_dec 1%nat t), (in_dec Nat.eq_dec 2%nat t); cbn [map fold_right];
    rewrite ?(Z 0%nat), ?(Z 1%nat), ?(Z 2%nat) by assumption; lia.
Qed.

(** * The loops of [_traceless_tensor] *)
Fixpoint traces (m : nat) : tensor_of_poly := match m with O => outer_powers | S m => trace_last (traces m) end.

Lemma symbol_pvar : forall i, symbol i = pvar i. Proof. intros [|[|i]]; reflexivity. Qed.

Lemma fold_outer : forall t p, fold_left (fun p j => p3_mul p (symbol j)) t p == p3_mul p (mono (keyof t)).
Proof.
  induction t as [|j t IH]; intros p; cbn [fold_left].
  - change (mono (keyof [])) with pone. ring.
  - rewrite IH, mono_cons, symbol_pvar. ring.
Qed.
Lemma outer_mono : forall t, outer_powers t == mono (keyof t).
Proof.
  intros [|i t]; [reflexivity|]. unfold outer_powers. rewrite fold_outer, mono_cons, symbol_pvar. reflexivity.
Qed.

Lemma traces_mono : forall m t, traces m t == p3_mul (p3_pow sh_r2 m) (mono (keyof t)).
Proof.
  induction m as [|m IH]; intros t.
  - cbn [traces]. rewrite outer_mono, ppow_0. ring.
  - cbn [traces]. unfold trace_last. rewrite !psum_S, psum_0, !IH, ppow_S, !keyof_app.
    rewrite <- !mono_mul. 
    assert (E0 : mono (keyof [0; 0]%nat) == p3_mul p3_x p3_x) by (intros w; rewrite lin_mono, lin_mul; cbn; ring).
    assert (E1 : mono (keyof [1; 1]%nat) == p3_mul p3_y p3_y) by (intros w; rewrite lin_mono, lin_mul; cbn; ring).
    assert (E2 : mono (keyof [2; 2]%nat) == p3_mul p3_z p3_z) by (intros w; rewrite lin_mono, lin_mul; cbn; ring).
    rewrite E0, E1, E2. unfold sh_r2 at 4. rewrite !ppow_S, !ppow_0. ring.
Qed.

Lemma homogeneous_pvar : forall i, homogeneous 1 (pvar i).
Proof. intros [|[|i]]; [apply homogeneous_x|apply homogeneous_y|apply homogeneous_z]. Qed.
Lemma homogeneous_outer : forall t, homogeneous (length t) (outer_powers t).
Proof.
  intros [|i t]; [apply homogeneous_const|]. unfold outer_powers.
  assert (G : forall t d p, homogeneous d p -> homogeneous (d + length t) (fold_left (fun p j => p3_mul p (symbol j)) t p)).
  { clear. induction t as [|j t IH]; intros d p H; cbn [fold_left length]; [now rewrite Nat.add_0_r|].
    replace (d + S (length t))%nat with (d + 1 + length t)%nat by lia. apply IH. apply homogeneous_mul; [exact H|].
    rewrite symbol_pvar. apply homogeneous_pvar. }
  apply (G t 1%nat). rewrite symbol_pvar. apply homogeneous_pvar.
Qed.
Lemma homogeneous_traces : forall m t, homogeneous (length t + 2 * m) (traces m t).
Proof.
  induction m as [|m IH]; intros t.
  - cbn [traces]. rewrite Nat.mul_0_r, Nat.add_0_r. apply homogeneous_outer.
  - cbn [traces]. unfold trace_last. apply homogeneous_sum. intros k _. specialize (IH (t ++ [k; k])).
    rewrite app_length in IH. cbn [length] in IH. replace (length t + 2 * S m)%nat with (length t + 2 + 2 * m)%nat by lia. exact IH.
Qed.

Lemma add_entries : forall X (P : X -> poly3) a cs b w i,
  lin w (fold_left (fun b c => add_entry a (P c) b) cs b i)
  = lin w (b i) + (if list_eq_dec Nat.eq_dec i a then csum (fun c => lin w (P c)) cs else 0).
Proof.
  intros X P a cs. induction cs as [|c cs IH]; intros b w i; cbn [fold_left].
  - destruct (list_eq_dec Nat.eq_dec i a); cbn; ring.
  - rewrite IH. unfold add_entry. destruct (list_eq_dec Nat.eq_dec i a); [rewrite lin_add, csum_cons|]; ring.
Qed.
Lemma add_entries_hom : forall X (P : X -> poly3) a cs b d i, homogeneous d (b i) -> (forall c, In c cs -> i = a -> homogeneous d (P c)) ->
  homogeneous d (fold_left (fun b c => add_entry a (P c) b) cs b i).
Proof.
  intros X P a cs. induction cs as [|c cs IH]; intros b d i H HP; cbn [fold_left]; [exact H|].
  apply IH; [|intros; apply HP; [now right|assumption]]. unfold add_entry. destruct (list_eq_dec Nat.eq_dec i a); [|exact H].
  apply homogeneous_add; [exact H|apply HP; [now left|assumption]].
Qed.

Lemma add_all : forall X (P : list nat -> X -> poly3) cs ts b w i, NoDup ts ->
  lin w (fold_left (fun b a => fold_left (fun b c => add_entry a (P a c) b) cs b) ts b i)
  = lin w (b i) + (if in_dec (list_eq_dec Nat.eq_dec) i ts then csum (fun c => lin w (P i c)) cs else 0).
Proof.
  intros X P cs ts. induction ts as [|a ts IH]; intros b w i HN; cbn [fold_left].
  - destruct (in_dec _ i []) as [[]|]; ring.
  - inversion HN as [|? ? Ha HN']; subst. rewrite IH by exact HN'. rewrite (add_entries X (P a)).
    destruct (list_eq_dec Nat.eq_dec i a) as [->|Hi].
    + destruct (in_dec _ a ts); [contradiction|]. destruct (in_dec _ a (a :: ts)) as [|Hn]; [ring|]. exfalso. apply Hn. now left.
    + destruct (in_dec _ i ts); destruct (in_dec _ i (a :: ts)) as [H|H].
      * ring.
      * exfalso. apply H. now right.
      * exfalso. destruct H as [H|H]; congruence.
      * ring.
Qed.
Lemma add_all_hom : forall X (P : list nat -> X -> poly3) cs ts b d i, homogeneous d (b i) -> (forall c, In c cs -> homogeneous d (P i c)) ->
  homogeneous d (fold_left (fun b a => fold_left (fun b c => add_entry a (P a c) b) cs b) ts b i).
Proof.
  intros X P cs ts. induction ts as [|a ts IH]; intros b d i H HP; cbn [fold_left]; [exact H|].
  apply IH; [|exact HP]. apply (add_entries_hom X (P a)); [exact H|]. intros c Hc ->. now apply HP.
Qed.

Definition kappa (n m : nat) : R := normalization_ratio n m / (2 ^ m * INR (fact m)).
(** The harmonic part of a monomial of degree n *)
Definition detraced (n : nat) (k : key3) : poly3 :=
  p3_sum (n / 2 + 1) (fun m => p3_scal (kappa n m) (p3_mul (p3_pow sh_r2 m) (lapn m (mono k)))).

Lemma kappa_0 : forall n, kappa n 0 = 1.
Proof.
  intros n. unfold kappa, normalization_ratio. rewrite Nat.mul_0_r, Nat.sub_0_r. cbn [pow fact]. change (INR 1) with 1. field.
  apply not_0_INR. pose proof (factorial2_pos (2 * n - 1)). lia.
Qed.

Lemma chosen_ok : forall t k c, Forall (fun i => (i < 3)%nat) t -> In c (combinations (seq 0 (length t)) k) ->
  Forall (fun i => (i < 3)%nat) (chosen t c) /\ (length (leftover t c) + k = length t)%nat.
Proof.
  intros t k c Ht Hc. apply combinations_parts in Hc as [P L]. split.
  - rewrite Forall_forall in *. intros i Hi. apply Ht. eapply Permutation_in; [exact P|]. apply in_or_app. now left.
  - apply Permutation_length in P. rewrite app_length in P. lia.
Qed.

Lemma detrace_fold : forall n M t, (2 * M <= n)%nat -> In t (cwr n axes) ->
  snd (fold_left (detrace_step n) (seq 1 M) (outer_powers, outer_powers)) = traces M /\
  fst (fold_left (detrace_step n) (seq 1 M) (outer_powers, outer_powers)) t
    == p3_sum (M + 1) (fun m => p3_scal (kappa n m) (p3_mul (p3_pow sh_r2 m) (lapn m (mono (keyof t))))) /\
  homogeneous n (fst (fold_left (detrace_step n) (seq 1 M) (outer_powers, outer_powers)) t).
Proof.
  intros n M t HM Ht. pose proof Ht as Hin. apply in_cwr_axes in Ht as [[HL HF] HS]. induction M as [|M IH].
  - split; [reflexivity|]. split.
    + cbn [seq fold_left fst]. change (0 + 1)%nat with 1%nat. rewrite outer_mono, psum_S, psum_0, kappa_0, pscal_1, ppow_0. cbn [lapn]. ring.
    + cbn [seq fold_left fst]. rewrite <- HL. apply homogeneous_outer.
  - specialize (IH ltac:(lia)). rewrite seq_S, fold_left_app. cbn [fold_left].
    destruct (fold_left (detrace_step n) (seq 1 M) (outer_powers, outer_powers)) as [b tr]. cbn [fst snd] in IH. destruct IH as (-> & Eb & Hb).
    unfold detrace_step. cbn [fst snd]. change (trace_last (traces M)) with (traces (S M)). change (1 + M)%nat with (S M).
    split; [reflexivity|]. split.
    + intros w. rewrite (add_all _ (fun alphas c => p3_scal (INR (multi_dirac_delta (chosen alphas c)) * normalization_ratio n (S M)) (traces (S M) (leftover alphas c))))
        by (apply NoDup_cwr, axes_sorted).
      destruct (in_dec _ t (cwr n axes)) as [_|Hn]; [|contradiction].
      change (S M + 1)%nat with (S (M + 1)). rewrite (psum_S (M + 1) _ w), lin_add, (Eb w). f_equal.
      replace (M + 1)%nat with (S M) by lia.
      set (W := fun d => lin w (p3_mul (p3_pow sh_r2 (S M)) (mono d))).
      transitivity (normalization_ratio n (S M) * weighted (2 * S M) W t).
      * unfold weighted. rewrite <- (combinations_splits t (2 * S M) (fun c d => pairings c * W d)), <- csum_scal, HL.
        apply csum_ext. intros c Hc. rewrite lin_scal. rewrite <- HL in Hc. apply (chosen_ok t _ c HF) in Hc as [Hc _].
        rewrite (mdd_pairings _ Hc), (traces_mono (S M) (leftover t c) w). unfold W. ring.
      * rewrite lin_scal. unfold kappa.
        assert (EW : lin w (p3_mul (p3_pow sh_r2 (S M)) (lapn (S M) (mono (keyof t)))) = lin W (lapn (S M) (mono (keyof t)))).
        { rewrite (pmul_comm _ _ w), lin_mul. apply lin_ext. intros d. unfold W. rewrite (pmul_comm _ _ w), lin_mul, lin_mono. reflexivity. }
        rewrite EW, <- (weighted_lapn t (S M) W HF). field. split; [apply INR_fact_neq|apply pow_nonzero; lra].
    + apply (add_all_hom _ (fun alphas c => p3_scal (INR (multi_dirac_delta (chosen alphas c)) * normalization_ratio n (S M)) (traces (S M) (leftover alphas c)))); [exact Hb|].
      intros c Hc. apply homogeneous_scal. rewrite <- HL in Hc. apply (chosen_ok t _ c HF) in Hc as [_ Hc].
      rewrite <- HL, <- Hc. apply homogeneous_traces.
Qed.

(** Entry i of [_traceless_tensor(n)] *)
Lemma traceless_tensor_length : forall n, length (traceless_tensor n) = length (cwr n axes).
Proof. intros [|[|n]]; [reflexivity|reflexivity|]. unfold traceless_tensor. now rewrite map_length. Qed.

Lemma traceless_tensor_entry : forall n i, (i < length (cwr n axes))%nat ->
  nth i (traceless_tensor n) pzero == detraced n (keyof (nth i (cwr n axes) [])) /\ homogeneous n (nth i (traceless_tensor n) pzero).
Proof.
  intros n i Hi. destruct n as [|[|n]].
  - cbn in Hi. replace i with 0%nat by lia. split; [|apply homogeneous_const].
    unfold detraced. change (0 / 2 + 1)%nat with 1%nat. rewrite psum_S, psum_0, kappa_0, pscal_1, ppow_0. cbn [lapn].
    change (mono (keyof (nth 0 (cwr 0 axes) []))) with pone. change (nth 0 (traceless_tensor 0) pzero) with pone. ring.
  - assert (E : forall p, detraced 1 p == mono p).
    { intros p. unfold detraced. change (1 / 2 + 1)%nat with 1%nat. rewrite psum_S, psum_0, kappa_0, pscal_1, ppow_0. cbn [lapn]. ring. }
    rewrite E. cbn in Hi. destruct i as [|[|[|i]]]; [| | |lia]; cbn; (split; [reflexivity|]); [apply homogeneous_x|apply homogeneous_y|apply homogeneous_z].
  - set (N := S (S n)) in *. assert (ET : traceless_tensor N = map (fst (fold_left (detrace_step N) (seq 1 (N / 2)) (outer_powers, outer_powers))) (cwr N axes)) by reflexivity.
    rewrite ET. rewrite (nth_indep _ pzero ((fst (fold_left (detrace_step N) (seq 1 (N / 2)) (outer_powers, outer_powers))) [])) by now rewrite map_length.
    rewrite map_nth. apply detrace_fold; [|now apply nth_In]. apply Nat.mul_div_le. lia.
Qed.
