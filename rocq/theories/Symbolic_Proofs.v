(** Values of the symbolic inner products that fill the Wigner-D table. *)
Require Import List Reals ZArith Bool Arith Lra Lia Setoid Morphisms Ring Field FinFun.
Require Import Verif.Base Verif.RSum Verif.Common_Model Verif.Common_Spec Verif.Symbolic_Model Verif.Poly_Proofs Verif.PolyDiff_Proofs Verif.Harmonics_Proofs Verif.Harmonics_Basis_Proofs Verif.PolyCalc_Proofs.
Import ListNotations.
Open Scope R_scope.

(** * Dictionaries *)
Section Dict.
Variable Key : Type.
Variable key_eq : forall a b : Key, {a = b} + {a <> b}.

Definition glin (w : Key -> R) (p : list (R * Key)) : R := fold_right (fun t acc => fst t * w (snd t) + acc) 0 p.
Definition gsum (w : Key -> R) (ks : list Key) : R := fold_right (fun k acc => w k + acc) 0 ks.
Local Notation coef := (pcoef key_eq rsum_list).
Local Notation dict := (as_dict key_eq rsum_list rzero).

Lemma gsum_cons : forall w k ks, gsum w (k :: ks) = w k + gsum w ks. Proof. reflexivity. Qed.
Lemma gsum_plus : forall w w' ks, gsum (fun k => w k + w' k) ks = gsum w ks + gsum w' ks.
Proof. intros w w' ks; induction ks as [|k ks IH]; simpl; [ring|]. rewrite IH. ring. Qed.
Lemma gsum_zero : forall w ks, (forall k, In k ks -> w k = 0) -> gsum w ks = 0.
Proof. intros w ks; induction ks as [|k ks IH]; simpl; intros H; [reflexivity|]. rewrite IH by auto. rewrite H by auto. ring. Qed.
Lemma gsum_ext : forall w w' ks, (forall k, In k ks -> w k = w' k) -> gsum w ks = gsum w' ks.
Proof. intros w w' ks; induction ks as [|k ks IH]; simpl; intros H; [reflexivity|]. rewrite IH by auto. rewrite H by auto. ring. Qed.

Lemma coef_cons : forall t p k, coef (t :: p) k = (if key_eq (snd t) k then fst t else 0) + coef p k.
Proof. intros t p k. unfold pcoef. cbn [filter]. destruct (key_eq (snd t) k); cbn [map]; unfold rsum_list; cbn [fold_right]; ring. Qed.

Lemma coef_out : forall p k, ~ In k (map snd p) -> coef p k = 0.
Proof.
  intros p k; induction p as [|t p IH]; intros H; [reflexivity|]. rewrite coef_cons, IH by (intros Hk; apply H; now right).
  destruct (key_eq (snd t) k) as [E|E]; [exfalso; apply H; left; exact E|ring].
Qed.

Lemma glin_coef : forall w p ks, NoDup ks -> (forall k, In k (map snd p) -> In k ks) -> glin w p = gsum (fun k => coef p k * w k) ks.
Proof.
  intros w p ks Hn; induction p as [|t p IH]; intros H.
  - cbn. symmetry. apply gsum_zero. intros. unfold pcoef. cbn. ring.
  - cbn [glin fold_right]. fold (glin w p). rewrite IH by (intros k Hk; apply H; now right).
    rewrite (gsum_ext (fun k => coef (t :: p) k * w k) (fun k => (if key_eq (snd t) k then fst t else 0) * w k + coef p k * w k))
      by (intros k _; rewrite coef_cons; ring).
    rewrite gsum_plus. f_equal. clear IH.
    assert (Hk : In (snd t) ks) by (apply H; now left).
    assert (G : forall ks, NoDup ks -> In (snd t) ks -> fst t * w (snd t) = gsum (fun k => (if key_eq (snd t) k then fst t else 0) * w k) ks);
      [|now apply G].
    clear. intros ks Hn Hk. induction Hn as [|k ks Hk' Hn IH]; [destruct Hk|]. rewrite gsum_cons. destruct Hk as [->|Hk].
    + rewrite gsum_zero; [destruct (key_eq (snd t) (snd t)); [ring|congruence]|]. intros k' Hk2. destruct (key_eq (snd t) k'); [subst; contradiction|ring].
    + rewrite <- IH by assumption. destruct (key_eq (snd t) k); [subst; contradiction|ring].
Qed.

Lemma rzero_true : forall c, rzero c = true <-> c = 0.
Proof. intros c. unfold rzero. destruct (Req_EM_T c 0); split; intros; congruence. Qed.

Lemma in_dict : forall p t, In t (dict p) <-> In (snd t) (map snd p) /\ fst t = coef p (snd t) /\ fst t <> 0.
Proof.
  intros p t. unfold as_dict. rewrite filter_In, in_map_iff. split.
  - intros [[k [<- Hk]] Hz]. apply nodup_In in Hk. cbn [fst snd] in *. split; [exact Hk|]. split; [reflexivity|].
    intros E. apply rzero_true in E. rewrite E in Hz. discriminate.
  - intros [Hk [E Hz]]. split.
    + exists (snd t). rewrite <- E. split; [now destruct t|]. now apply nodup_In.
    + destruct (rzero (fst t)) eqn:Ez; [apply rzero_true in Ez; contradiction|reflexivity].
Qed.

Lemma nodup_dict : forall p, NoDup (map snd (dict p)).
Proof.
  intros p. unfold as_dict.
  assert (G : forall (f : Key -> R) ks, NoDup ks -> NoDup (map snd (filter (fun t => negb (rzero (fst t))) (map (fun k => (f k, k)) ks)))).
  { intros f ks Hn. induction Hn as [|k ks Hk Hn IH]; [constructor|]. cbn. destruct (negb (rzero (f k))); [|exact IH]. cbn. constructor; [|exact IH].
    intros Hin. apply in_map_iff in Hin as [t [Et Ht]]. apply filter_In in Ht as [Ht _]. apply in_map_iff in Ht as [k' [<- Hk']]. cbn in Et. congruence. }
  apply G, NoDup_nodup.
Qed.

Lemma coef_dict : forall p k, coef (dict p) k = coef p k.
Proof.
  intros p k. destruct (in_dec key_eq k (map snd (dict p))) as [H|H].
  - apply in_map_iff in H as [t [<- Ht]]. pose proof (proj1 (in_dict p t) Ht) as [_ [E _]]. rewrite <- E.
    pose proof (nodup_dict p) as Hn. induction (dict p) as [|u d IH]; [destruct Ht|]. rewrite coef_cons. cbn in Hn. inversion Hn as [|? ? Hu Hn']; subst.
    destruct Ht as [->|Ht].
    + rewrite coef_out by assumption. destruct (key_eq (snd t) (snd t)); [ring|congruence].
    + rewrite IH by assumption. destruct (key_eq (snd u) (snd t)) as [E2|E2]; [|ring]. exfalso. apply Hu. rewrite E2. now apply in_map.
  - rewrite coef_out by exact H. destruct (in_dec key_eq k (map snd p)) as [Hk|Hk]; [|now rewrite coef_out].
    destruct (Req_dec (coef p k) 0) as [E|E]; [now rewrite E|]. exfalso. apply H. apply in_map_iff. exists (coef p k, k). split; [reflexivity|].
    apply in_dict. cbn. auto.
Qed.

Lemma glin_dict : forall w p, glin w (dict p) = glin w p.
Proof.
  intros w p. pose proof (NoDup_nodup key_eq (map snd p)) as Hn.
  rewrite (glin_coef w (dict p) (nodup key_eq (map snd p)) Hn).
  - rewrite (glin_coef w p (nodup key_eq (map snd p)) Hn) by (intros; now apply nodup_In). apply gsum_ext. intros. now rewrite coef_dict.
  - intros k Hk. apply nodup_In. apply in_map_iff in Hk as [t [<- Ht]]. apply in_dict in Ht. tauto.
Qed.

Lemma dict_nil : forall w p, dict p = [] -> glin w p = 0.
Proof. intros w p H. rewrite <- glin_dict, H. reflexivity. Qed.
End Dict.
Arguments glin {Key}.
Arguments gsum {Key}.

(** * Polynomials in the entries of a matrix *)

Definition key9_at (M : nat -> nat -> R) (k : key9) : R :=
  M 0%nat 0%nat ^ nth 0 k 0%nat * M 0%nat 1%nat ^ nth 1 k 0%nat * M 0%nat 2%nat ^ nth 2 k 0%nat *
  M 1%nat 0%nat ^ nth 3 k 0%nat * M 1%nat 1%nat ^ nth 4 k 0%nat * M 1%nat 2%nat ^ nth 5 k 0%nat *
  M 2%nat 0%nat ^ nth 6 k 0%nat * M 2%nat 1%nat ^ nth 7 k 0%nat * M 2%nat 2%nat ^ nth 8 k 0%nat.

Definition ev9 (M : nat -> nat -> R) (p : poly9) : R := glin (key9_at M) p.
Definition hom9 (d : nat) (p : poly9) : Prop := forall t, In t p -> length (snd t) = 9%nat /\ sum_list (snd t) = d.

Lemma key9_split : forall k : key9, length k = 9%nat -> exists a b c d e f g h i, k = [a; b; c; d; e; f; g; h; i].
Proof.
  intros k H. do 9 (destruct k as [|? k]; [discriminate|]). destruct k; [|discriminate]. repeat eexists.
Qed.

Lemma key9_mul_ok : forall M k k', length k = 9%nat -> length k' = 9%nat ->
  length (key9_mul k k') = 9%nat /\ sum_list (key9_mul k k') = (sum_list k + sum_list k')%nat /\
  key9_at M (key9_mul k k') = key9_at M k * key9_at M k'.
Proof.
  intros M k k' H H'. apply key9_split in H as (a & b & c & d & e & f & g & h & i & ->). apply key9_split in H' as (a' & b' & c' & d' & e' & f' & g' & h' & i' & ->).
  split; [reflexivity|]. split; [cbn; lia|]. unfold key9_at. cbn [key9_mul combine map nth fst snd]. rewrite !pow_add. ring.
Qed.

Lemma ev9_nil : forall M, ev9 M [] = 0. Proof. reflexivity. Qed.
Lemma ev9_cons : forall M t p, ev9 M (t :: p) = fst t * key9_at M (snd t) + ev9 M p. Proof. reflexivity. Qed.
Lemma ev9_app : forall M p q, ev9 M (p ++ q) = ev9 M p + ev9 M q.
Proof. intros M p q. induction p as [|t p IH]; cbn [app]; [rewrite ev9_nil; ring|]. rewrite !ev9_cons, IH. ring. Qed.

Lemma ev9_sum : forall M ps, ev9 M (p9_sum ps) = rsum_list (map (ev9 M) ps).
Proof. intros M ps. induction ps as [|p ps IH]; [reflexivity|]. unfold p9_sum in *. cbn [concat map rsum_list fold_right]. rewrite ev9_app, IH. reflexivity. Qed.

Lemma ev9_scal : forall M c p, ev9 M (p9_scal c p) = c * ev9 M p.
Proof.
  intros M c p. unfold p9_scal, pscal. induction p as [|t p IH]; cbn [map]; [rewrite !ev9_nil; ring|]. rewrite !ev9_cons, IH. cbn [fst snd]. ring.
Qed.

Lemma ev9_const : forall M c, ev9 M (p9_const c) = c.
Proof. intros M c. unfold ev9, p9_const, glin, key9_at, key9_one. cbn [fold_right fst snd repeat nth pow]. ring. Qed.

Lemma ev9_var : forall M i j, (i < 3)%nat -> (j < 3)%nat -> ev9 M (p9_var i j) = M i j.
Proof.
  intros M i j Hi Hj. unfold ev9, p9_var, glin, key9_at. cbn [fold_right fst snd].
  destruct i as [|[|[|i]]]; try lia; destruct j as [|[|[|j]]]; try lia; cbn [seq map Nat.mul Nat.add Nat.eqb nth pow]; ring.
Qed.

Lemma ev9_mul : forall M d e p q, hom9 d p -> hom9 e q -> ev9 M (p9_mul p q) = ev9 M p * ev9 M q.
Proof.
  intros M d e p q Hp Hq. unfold p9_mul, pmul. induction p as [|t p IH]; [cbn [flat_map]; rewrite !ev9_nil; ring|]. cbn [flat_map].
  rewrite ev9_app, IH by (intros u Hu; apply Hp; now right). rewrite ev9_cons, Rmult_plus_distr_r. f_equal.
  destruct (Hp t (or_introl eq_refl)) as [Ht _]. clear IH Hp. induction q as [|u q IH]; [cbn [map]; rewrite !ev9_nil; ring|]. cbn [map].
  rewrite !ev9_cons. cbn [fst snd]. rewrite IH by (intros v Hv; apply Hq; now right).
  destruct (Hq u (or_introl eq_refl)) as [Hu _]. destruct (key9_mul_ok M (snd t) (snd u) Ht Hu) as [_ [_ ->]]. ring.
Qed.

Lemma hom9_mul : forall d e p q, hom9 d p -> hom9 e q -> hom9 (d + e) (p9_mul p q).
Proof.
  intros d e p q Hp Hq t Ht. unfold p9_mul, pmul in Ht. apply in_flat_map in Ht as [u [Hu Ht]]. apply in_map_iff in Ht as [v [<- Hv]]. cbn [snd].
  destruct (Hp u Hu) as [L1 S1], (Hq v Hv) as [L2 S2]. destruct (key9_mul_ok (fun _ _ => 0) (snd u) (snd v) L1 L2) as [L [S _]]. rewrite L, S, S1, S2. auto.
Qed.
Lemma hom9_const : forall c, hom9 0 (p9_const c). Proof. intros c t [<-|[]]. auto. Qed.
Lemma hom9_var : forall i j, (i < 3)%nat -> (j < 3)%nat -> hom9 1 (p9_var i j).
Proof.
  intros i j Hi Hj t [<-|[]]. cbn [snd]. destruct i as [|[|[|i]]]; try lia; destruct j as [|[|[|j]]]; try lia; split; reflexivity.
Qed.
Lemma hom9_scal : forall d c p, hom9 d p -> hom9 d (p9_scal c p).
Proof. intros d c p H t Ht. unfold p9_scal, pscal in Ht. apply in_map_iff in Ht as [u [<- Hu]]. exact (H u Hu). Qed.
Lemma hom9_sum : forall d ps, (forall p, In p ps -> hom9 d p) -> hom9 d (p9_sum ps).
Proof. intros d ps H t Ht. unfold p9_sum in Ht. apply in_concat in Ht as [p [Hp Ht]]. exact (H p Hp t Ht). Qed.

Lemma p9_zero_ev : forall M p, p9_zero p = true -> ev9 M p = 0.
Proof. intros M p H. unfold p9_zero in H. destruct (p9_as_dict p) eqn:E; [|discriminate]. exact (dict_nil _ key9_eq _ p E). Qed.

(** * Polynomials in x, y, z with such coefficients *)

Definition ev39 (M : nat -> nat -> R) (q : poly39) : poly3 := map (fun t => (ev9 M (fst t), snd t)) q.
(** Coefficients of monomials of degree d are homogeneous of degree d (rotated) or 0 (constant). *)
Definition bihom (q : poly39) : Prop := forall t, In t q -> hom9 (key3_deg (snd t)) (fst t).
Definition chom (q : poly39) : Prop := forall t, In t q -> hom9 0 (fst t).

Lemma ev39_mul : forall M p q, (forall t, In t p -> exists d, hom9 d (fst t)) -> (forall t, In t q -> exists d, hom9 d (fst t)) ->
  ev39 M (p39_mul p q) = p3_mul (ev39 M p) (ev39 M q).
Proof.
  intros M p q Hp Hq. unfold p39_mul, p3_mul, pmul, ev39. induction p as [|t p IH]; [reflexivity|]. cbn [flat_map map].
  rewrite map_app, IH by (intros u Hu; apply Hp; now right). f_equal. rewrite !map_map. apply map_ext_in. intros u Hu. cbn [fst snd].
  destruct (Hp t (or_introl eq_refl)) as [d Hd], (Hq u Hu) as [e He]. now rewrite (ev9_mul M d e).
Qed.

Lemma bihom_wf : forall q, bihom q -> forall t, In t q -> exists d, hom9 d (fst t).
Proof. intros q H t Ht. eexists. exact (H t Ht). Qed.

Lemma bihom_mul : forall p q, bihom p -> bihom q -> bihom (p39_mul p q).
Proof.
  intros p q Hp Hq t Ht. unfold p39_mul, pmul in Ht. apply in_flat_map in Ht as [u [Hu Ht]]. apply in_map_iff in Ht as [v [<- Hv]]. cbn [fst snd].
  rewrite key3_deg_mul. apply hom9_mul; [now apply Hp|now apply Hq].
Qed.

Lemma bihom_one : bihom [(p9_const 1, (0, 0, 0)%nat)]. Proof. intros t [<-|[]]. apply hom9_const. Qed.
Lemma bihom_pow : forall p n, bihom p -> bihom (p39_pow p n).
Proof. intros p n H. induction n as [|n IH]; [exact bihom_one|]. now apply bihom_mul. Qed.

Lemma ev39_pow : forall M p n, bihom p -> ev39 M (p39_pow p n) = p3_pow (ev39 M p) n.
Proof.
  intros M p n H. induction n as [|n IH].
  - change (ev39 M (p39_pow p 0)) with [(ev9 M (p9_const 1), (0, 0, 0)%nat)]. rewrite ev9_const. reflexivity.
  - change (p39_pow p (S n)) with (p39_mul p (p39_pow p n)). rewrite ev39_mul by (apply bihom_wf; try apply bihom_pow; assumption). now rewrite IH.
Qed.

Lemma bihom_coordinate : forall i, (i < 3)%nat -> bihom (rotated_coordinate i).
Proof. intros i Hi t [<-|[<-|[<-|[]]]]; cbn [fst snd key3_deg]; apply hom9_var; lia. Qed.

Lemma ev39_coordinate : forall M i, (i < 3)%nat -> ev39 M (rotated_coordinate i) == row M i.
Proof.
  intros M i Hi w. unfold rotated_coordinate, ev39, row. cbn [map fst snd]. rewrite !ev9_var by lia. rewrite !lin_add, !lin_scal. cbn. ring.
Qed.

Lemma rotated_term_ok : forall k, let '(a, b, c) := k in
  let q := p39_mul (p39_pow (rotated_coordinate 0) a) (p39_mul (p39_pow (rotated_coordinate 1) b) (p39_pow (rotated_coordinate 2) c)) in
  bihom q /\ forall M, ev39 M q == p3_mul (p3_pow (row M 0) a) (p3_mul (p3_pow (row M 1) b) (p3_pow (row M 2) c)).
Proof.
  intros [[a b] c]. cbv zeta. set (A := p39_pow (rotated_coordinate 0) a). set (B := p39_pow (rotated_coordinate 1) b). set (C := p39_pow (rotated_coordinate 2) c).
  assert (HA : bihom A) by (apply bihom_pow, bihom_coordinate; lia). assert (HB : bihom B) by (apply bihom_pow, bihom_coordinate; lia).
  assert (HC : bihom C) by (apply bihom_pow, bihom_coordinate; lia). assert (HBC : bihom (p39_mul B C)) by (now apply bihom_mul).
  split; [now apply bihom_mul|]. intros M. rewrite !ev39_mul by (now apply bihom_wf). unfold A, B, C.
  rewrite !ev39_pow by (apply bihom_coordinate; lia). rewrite !ev39_coordinate by lia. reflexivity.
Qed.

Lemma ev39_rotate : forall M p, ev39 M (rotate_xyz_polynomial (p39_of p)) == psubst M p.
Proof.
  intros M p. induction p as [|[c0 [[a b] c]] p IH]; [reflexivity|].
  change (rotate_xyz_polynomial (p39_of ((c0, (a, b, c)) :: p))) with
    (p39_scal (p9_const c0) (p39_mul (p39_pow (rotated_coordinate 0) a) (p39_mul (p39_pow (rotated_coordinate 1) b) (p39_pow (rotated_coordinate 2) c)))
     ++ rotate_xyz_polynomial (p39_of p)).
  unfold ev39 at 1. rewrite map_app. fold (ev39 M (rotate_xyz_polynomial (p39_of p))).
  pose proof (rotated_term_ok (a, b, c)) as [Hb He]. set (q := p39_mul _ _) in *.
  intros w. change (map ?f ?x ++ ?y) with (p3_add (map f x) y). rewrite lin_add. unfold psubst, plift. cbn [flat_map]. rewrite lin_app. f_equal; [|apply IH].
  cbn [fst snd]. rewrite lin_scal. rewrite <- (He M w).
  unfold p39_scal, pscal. rewrite map_map. rewrite <- lin_scal. unfold p3_scal, pscal, ev39. rewrite map_map. f_equal. apply map_ext_in. intros t Ht. cbn [fst snd].
  rewrite (ev9_mul M 0 (key3_deg (snd t))); [now rewrite ev9_const|apply hom9_const|now apply Hb].
Qed.

Lemma bihom_rotate : forall p, bihom (rotate_xyz_polynomial (p39_of p)).
Proof.
  intros p t Ht. unfold rotate_xyz_polynomial in Ht. apply in_flat_map in Ht as [u [Hu Ht]]. unfold p39_of in Hu. apply in_map_iff in Hu as [v [<- Hv]].
  cbn [fst snd] in Ht. destruct (snd v) as [[a b] c]. pose proof (rotated_term_ok (a, b, c)) as [Hb _]. unfold p39_scal, pscal in Ht.
  apply in_map_iff in Ht as [s [<- Hs]]. cbn [fst snd]. change (key3_deg (snd s)) with (0 + key3_deg (snd s))%nat. apply hom9_mul; [apply hom9_const|now apply Hb].
Qed.

Lemma homogeneous_rotate : forall d p, homogeneous d p -> forall t, In t (rotate_xyz_polynomial (p39_of p)) -> key3_deg (snd t) = d.
Proof.
  intros d p Hp t Ht. unfold rotate_xyz_polynomial in Ht. apply in_flat_map in Ht as [u [Hu Ht]]. unfold p39_of in Hu. apply in_map_iff in Hu as [v [<- Hv]].
  cbn [fst snd] in Ht. specialize (Hp v Hv). destruct (snd v) as [[a b] c]. unfold p39_scal, pscal in Ht.
  apply in_map_iff in Ht as [s [<- Hs]]. cbn [fst snd]. clear Hv v.
  assert (HM : forall d e p q, (forall t, In t p -> key3_deg (snd t) = d) -> (forall t, In t q -> key3_deg (snd t) = e) ->
     forall t : poly9 * key3, In t (p39_mul p q) -> key3_deg (snd t) = (d + e)%nat).
  { intros d1 e1 p1 q1 H1 H2 t Ht. unfold p39_mul, pmul in Ht. apply in_flat_map in Ht as [u [Hu Ht]]. apply in_map_iff in Ht as [v [<- Hv]]. cbn [snd].
    rewrite key3_deg_mul, (H1 u Hu), (H2 v Hv). reflexivity. }
  assert (HP : forall i n t, In t (p39_pow (rotated_coordinate i) n) -> key3_deg (snd t) = n).
  { intros i n. induction n as [|n IH]; [intros t [<-|[]]; reflexivity|]. apply (HM 1%nat n); [|exact IH]. intros t [<-|[<-|[<-|[]]]]; reflexivity. }
  apply (HM a (b + c)%nat) in Hs; [|apply HP|apply (HM b c); apply HP]. cbn in Hp. lia.
Qed.

Lemma ev39_of : forall M p, ev39 M (p39_of p) = p.
Proof. intros M p. unfold ev39, p39_of. rewrite map_map. rewrite <- (map_id p) at 2. apply map_ext. intros [c k]. cbn [fst snd]. now rewrite ev9_const. Qed.

Lemma ev9_coef : forall M q k, ev9 M (p39_coef q k) = p3_coef (ev39 M q) k.
Proof.
  intros M q k. unfold p39_coef, p3_coef, pcoef. rewrite ev9_sum. unfold ev39.
  induction q as [|t q IH]; [reflexivity|]. cbn [map filter fst snd]. destruct (key3_eq (snd t) k); [|exact IH]. cbn [map fst]. unfold rsum_list in *. cbn [fold_right]. now rewrite IH.
Qed.

Lemma in_dict39 : forall q t, In t (p39_as_dict q) -> fst t = p39_coef q (snd t) /\ In (snd t) (map snd q).
Proof.
  intros q t H. unfold p39_as_dict, as_dict in H. apply filter_In in H as [H _]. apply in_map_iff in H as [k [<- Hk]]. cbn [fst snd]. apply nodup_In in Hk. auto.
Qed.

Lemma total_degree_ok : forall l q M, (forall t, In t q -> key3_deg (snd t) = l) -> ~ ev39 M q == pzero -> total_degree q = l.
Proof.
  intros l q M Hq Hn.
  assert (HD : forall t, In t (p39_as_dict q) -> key3_deg (snd t) = l).
  { intros t Ht. apply in_dict39 in Ht as [_ Hk]. apply in_map_iff in Hk as [u [<- Hu]]. now apply Hq. }
  unfold total_degree. destruct (p39_as_dict q) as [|t d] eqn:E.
  - exfalso. apply Hn. apply peq_coef. intros k. replace (p3_coef pzero k) with 0 by reflexivity. rewrite <- ev9_coef.
    destruct (in_dec key3_eq k (map snd q)) as [Hk|Hk].
    + apply p9_zero_ev. destruct (p9_zero (p39_coef q k)) eqn:Z; [reflexivity|]. exfalso.
      assert (In (p39_coef q k, k) []) as []. rewrite <- E. unfold p39_as_dict, as_dict. apply filter_In. split.
      * apply in_map_iff. exists k. split; [reflexivity|]. now apply nodup_In.
      * cbn [fst]. fold (p39_coef q k). now rewrite Z.
    + assert (p39_coef q k = []) as ->; [|reflexivity]. unfold p39_coef, pcoef. clear E HD Hn Hq. induction q as [|u q IH]; [reflexivity|]. cbn [filter].
      destruct (key3_eq (snd u) k) as [E2|E2]; [exfalso; apply Hk; left; exact E2|]. apply IH. intros H. apply Hk. now right.
  - assert (list_max (map (fun t => key3_deg (snd t)) (t :: d)) <= l)%nat.
    { apply list_max_le, Forall_forall. intros n Hn'. apply in_map_iff in Hn' as [u [<- Hu]]. rewrite (HD u Hu). lia. }
    pose proof (HD t (or_introl eq_refl)). cbn [map list_max fold_right] in *. unfold list_max in *. cbn [fold_right] in *. lia.
Qed.

Lemma trinomial_ok : forall k, trinomial_coefficient k = INR (fact (key3_deg k)) / kfact k.
Proof. intros [[a b] c]. reflexivity. Qed.

Lemma kfact_neq : forall k, kfact k <> 0.
Proof. intros [[a b] c]. unfold kfact. repeat apply Rmult_integral_contrapositive_currified; apply INR_fact_neq. Qed.

(** [_polynomial_dot_product] of homogeneous polynomials of the same degree. *)
Lemma dot_product_ok : forall l p q M0 M1, homogeneous l p -> (forall t, In t q -> key3_deg (snd t) = l) ->
  (forall t, In t q -> exists d, hom9 d (fst t)) ->
  ~ ev39 M0 (p39_of p) == pzero -> ~ ev39 M1 q == pzero ->
  exists d, polynomial_dot_product (p39_of p) q = Some d /\ (forall M, ev9 M d = fischer p (ev39 M q) / ynorm l) /\
    (forall e, (forall t, In t q -> hom9 e (fst t)) -> hom9 e d).
Proof.
  intros l p q M0 M1 Hp Hq Hw Np Nq. unfold polynomial_dot_product.
  assert (Hp' : forall t, In t (p39_of p) -> key3_deg (snd t) = l).
  { intros t Ht. unfold p39_of in Ht. apply in_map_iff in Ht as [u [<- Hu]]. cbn [snd]. now apply Hp. }
  rewrite (total_degree_ok l _ M0 Hp' Np), (total_degree_ok l q M1 Hq Nq), Nat.eqb_refl. cbn [negb]. eexists. split; [reflexivity|].
  assert (H0 : forall k, hom9 0 (p39_coef (p39_of p) k)).
  { intros k. unfold p39_coef, pcoef. apply hom9_sum. intros c Hc. apply in_map_iff in Hc as [t [<- Ht]]. apply filter_In in Ht as [Ht _].
    unfold p39_of in Ht. apply in_map_iff in Ht as [u [<- Hu]]. apply hom9_const. }
  assert (H1 : forall e, (forall t, In t q -> hom9 e (fst t)) -> forall k, hom9 e (p39_coef q k)).
  { intros e He k. unfold p39_coef, pcoef. apply hom9_sum. intros c Hc. apply in_map_iff in Hc as [t [<- Ht]]. apply filter_In in Ht as [Ht _]. now apply He. }
  assert (HM : forall M a k, hom9 0 a -> ev9 M (p9_mul a (p39_coef q k)) = ev9 M a * p3_coef (ev39 M q) k).
  { intros M a k Ha. rewrite <- ev9_coef. unfold p39_coef, pcoef. set (cs := map fst _).
    assert (Hcs : forall c, In c cs -> exists d, hom9 d c).
    { intros c Hc. apply in_map_iff in Hc as [t [<- Ht]]. apply filter_In in Ht as [Ht _]. now apply Hw. }
    clearbody cs. unfold p9_sum. induction cs as [|c cs IH]; cbn [concat].
    - transitivity 0; [|rewrite ev9_nil; ring]. unfold p9_mul, pmul. induction a as [|t a IHa]; [reflexivity|]. cbn [flat_map map app]. apply IHa. intros u Hu. apply Ha. now right.
    - rewrite ev9_app, Rmult_plus_distr_l, <- IH by (intros c' Hc'; apply Hcs; now right). destruct (Hcs c (or_introl eq_refl)) as [d Hd].
      rewrite <- (ev9_mul M 0 d a c Ha Hd). unfold p9_mul, pmul. clear. induction a as [|t a IHa]; [cbn [flat_map]; rewrite !ev9_nil; ring|].
      cbn [flat_map]. rewrite map_app, <- !app_assoc. rewrite !ev9_app, IHa. ring. }
  split.
  - intros M. rewrite ev9_scal, ev9_sum, map_map.
    set (W := fun k => kfact k * p3_coef (ev39 M q) k).
    assert (E : rsum_list (map (fun t => ev9 M (p9_scal (/ trinomial_coefficient (snd t)) (p9_mul (fst t) (p39_coef q (snd t))))) (p39_as_dict (p39_of p)))
                = / INR (fact l) * fischer p (ev39 M q)).
    { unfold fischer. fold W. pose proof (NoDup_nodup key3_eq (map snd p)) as Hn.
      change (lin W p) with (glin W p). rewrite (glin_coef _ key3_eq W p _ Hn) by (intros; now apply nodup_In).
      unfold p39_as_dict, as_dict. replace (map snd (p39_of p)) with (map snd p) by (unfold p39_of; rewrite map_map; reflexivity).
      assert (Hks : forall k, In k (nodup key3_eq (map snd p)) -> key3_deg k = l).
      { intros k Hk. apply nodup_In in Hk. apply in_map_iff in Hk as [t [<- Ht]]. now apply Hp. }
      clear Hn. induction (nodup key3_eq (map snd p)) as [|k ks IH]; [cbn; ring|].
      cbn [map filter fst snd]. set (c := pcoef key3_eq p9_sum (p39_of p) k) in *.
      assert (Ec : ev9 M c = p3_coef p k) by (unfold c; change (pcoef key3_eq p9_sum (p39_of p) k) with (p39_coef (p39_of p) k); now rewrite ev9_coef, ev39_of).
      cbn [gsum fold_right]. rewrite Rmult_plus_distr_l. fold (gsum (fun k0 => pcoef key3_eq rsum_list p k0 * W k0) ks).
      rewrite <- IH by (intros; apply Hks; now right). change (pcoef key3_eq rsum_list p k) with (p3_coef p k).
      destruct (p9_zero c) eqn:Z.
      - cbn [negb]. apply (p9_zero_ev M) in Z. rewrite <- Ec, Z. ring.
      - cbn [negb map rsum_list fold_right fst snd]. rewrite ev9_scal, HM by apply H0. rewrite Ec, trinomial_ok, (Hks k (or_introl eq_refl)).
        unfold W, rsum_list. field. split; [apply INR_fact_neq|apply kfact_neq]. }
    rewrite E. unfold ynorm. pose proof (INR_comb (2 * l) l ltac:(lia)) as EC. replace (2 * l - l)%nat with l in EC by lia. rewrite EC.
    field. repeat split; try apply INR_fact_neq; apply pow_nonzero; lra.
  - intros e He. apply hom9_scal, hom9_sum. intros c Hc. apply in_map_iff in Hc as [t [<- Ht]]. apply hom9_scal.
    apply in_dict39 in Ht as [Et _]. rewrite Et. change e with (0 + e)%nat. apply hom9_mul; [apply H0|now apply H1].
Qed.

(** The product stored in column (i, j) of the block of degree l. *)
Lemma wigner_product : forall l i j, (i < 2 * l + 1)%nat -> (j < 2 * l + 1)%nat ->
  exists d, polynomial_dot_product (p39_of (Yi l j)) (rotate_xyz_polynomial (p39_of (Yi l i))) = Some d /\
    (forall M, ev9 M d = dmat M l i j) /\ hom9 l d.
Proof.
  intros l i j Hi Hj.
  assert (HY : forall k, (k < 2 * l + 1)%nat -> homogeneous l (Yi l k)) by (intros k Hk; apply homogeneous_Y, order_bound, Hk).
  destruct (dot_product_ok l (Yi l j) (rotate_xyz_polynomial (p39_of (Yi l i))) kron kron) as [d [E [V Hd]]].
  - now apply HY.
  - apply homogeneous_rotate. now apply HY.
  - apply bihom_wf, bihom_rotate.
  - rewrite ev39_of. now apply Yi_nonzero.
  - rewrite ev39_rotate, subst_id. now apply Yi_nonzero.
  - exists d. split; [exact E|]. split.
    + intros M. rewrite V. unfold dmat. f_equal. apply fischer_proper; [reflexivity|apply ev39_rotate].
    + apply Hd. intros t Ht. rewrite <- (homogeneous_rotate l (Yi l i) (HY i Hi) t Ht). now apply (bihom_rotate (Yi l i)).
Qed.

Lemma poly9_terms_ok : forall l d, hom9 l d -> (exists M, ev9 M d <> 0) ->
  NoDup (map fst (poly9_terms d)) /\ (forall p v, In (p, v) (poly9_terms d) -> length p = 9%nat /\ sum_list p = l) /\
  forall M, ev9 M d = rsum_list (map (fun t => snd t * key9_at M (fst t)) (poly9_terms d)).
Proof.
  intros l d Hd [M0 HM].
  assert (E : poly9_terms d = map (fun t => (snd t, fst t)) (p9_as_dict d)).
  { unfold poly9_terms. destruct (p9_as_dict d) eqn:E; [|reflexivity]. exfalso. apply HM. exact (dict_nil _ key9_eq _ d E). }
  rewrite E, !map_map. cbn [fst snd]. split; [exact (nodup_dict _ key9_eq d)|]. split.
  - intros p v H. apply in_map_iff in H as [t [Et Ht]]. injection Et as <- <-. apply (in_dict _ key9_eq) in Ht as [Ht _]. apply in_map_iff in Ht as [u [<- Hu]]. now apply Hd.
  - intros M. unfold ev9. rewrite <- (glin_dict _ key9_eq). change (as_dict key9_eq rsum_list rzero d) with (p9_as_dict d).
    clear E. induction (p9_as_dict d) as [|t s IH]; [reflexivity|]. cbn [map rsum_list fold_right glin]. unfold rsum_list in IH. rewrite <- IH. reflexivity.
Qed.

Lemma poly3_terms_ok : forall l p, homogeneous l p -> ~ p == pzero ->
  NoDup (map fst (poly3_terms p)) /\ (forall k v, In (k, v) (poly3_terms p) -> length k = 3%nat /\ sum_list k = l) /\
  forall x y z, peval p (x, y, z) = rsum_list (map (fun t => snd t * (x ^ nth 0 (fst t) 0%nat * y ^ nth 1 (fst t) 0%nat * z ^ nth 2 (fst t) 0%nat)) (poly3_terms p)).
Proof.
  intros l p Hp Hn.
  assert (E : poly3_terms p = map (fun t => let '(a, b, c) := snd t in ([a; b; c], fst t)) (as_dict key3_eq rsum_list rzero p)).
  { unfold poly3_terms. destruct (as_dict key3_eq rsum_list rzero p) eqn:E; [|reflexivity]. exfalso. apply Hn. intros w.
    change (lin w p) with (glin w p). now rewrite (dict_nil _ key3_eq w p E). }
  rewrite E, !map_map. split; [|split].
  - pose proof (nodup_dict _ key3_eq p) as H.
    assert (E2 : map (fun t => fst (let '(a, b, c) := snd t in ([a; b; c], fst t))) (as_dict key3_eq rsum_list rzero p)
        = map (fun k : key3 => let '(a, b, c) := k in [a; b; c]) (map snd (as_dict key3_eq rsum_list rzero p))).
    { rewrite map_map. apply map_ext. intros [v [[a b] c]]. reflexivity. }
    rewrite E2. apply Injective_map_NoDup; [|exact H]. intros [[a b] c] [[a' b'] c'] H2. congruence.
  - intros k v H. apply in_map_iff in H as [t [Et Ht]]. apply (in_dict _ key3_eq) in Ht as [Ht _]. apply in_map_iff in Ht as [u [Eu Hu]]. specialize (Hp u Hu). rewrite Eu in Hp.
    destruct t as [tv [[a b] c]]. cbn [fst snd] in *. injection Et as <- <-. cbn in Hp. split; [reflexivity|]. cbn. lia.
  - intros x y z. unfold peval. change (lin (mono_at (x, y, z)) p) with (glin (mono_at (x, y, z)) p). rewrite <- (glin_dict _ key3_eq).
    clear E. induction (as_dict key3_eq rsum_list rzero p) as [|[v [[a b] c]] s IH]; [reflexivity|]. cbn [map fst snd nth].
    change (glin (mono_at (x, y, z)) ((v, (a, b, c)) :: s)) with (v * (x ^ a * y ^ b * z ^ c) + glin (mono_at (x, y, z)) s). rewrite IH. reflexivity.
Qed.
