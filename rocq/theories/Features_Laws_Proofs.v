(** Algebraic laws of add, reflect, rotate and change_max_degree_or_type. *)
Require Import List Reals ZArith Bool Lia Lra Permutation.
Require Import ZifyNat.
Require Import Verif.Base Verif.RSum Verif.Features_Model Verif.Features_Spec Verif.Features_Proofs.
Import ListNotations.
Open Scope R_scope.
Arguments Nat.modulo : simpl never.
Arguments Nat.mul : simpl never.

Lemma same_feature_sym : forall x y, same_feature x y -> same_feature y x.
Proof.
  intros x y [H1 [H2 [H3 [H4 [H5 H6]]]]]. repeat split; try congruence.
  intros i s d f Hs Hd. symmetry. apply H6; congruence.
Qed.

Lemma comp_sum_zero : forall xs i p l k f, (forall x, In x xs -> comp x i p l k f = 0) ->
  sum_R (map (fun x => comp x i p l k f) xs) = 0.
Proof.
  induction xs as [|x xs IH]; intros i p l k f H; simpl; [reflexivity|].
  rewrite H by now left. rewrite IH by (intros; apply H; now right). ring.
Qed.

(** Everything known about a successful addition. *)
Definition is_sum (xs : list feat) (y : feat) : Prop :=
  exists m, valid m y /\ (0 < m)%nat
  /\ fS y = (if existsb (fun x => (fS x =? 2)%nat) xs then 2%nat else 1%nat)
  /\ Forall (fun x => fB x = fB y /\ fF x = fF y /\ fdt x = fdt y /\ well_formed x /\ (fD x <= m * m)%nat) xs
  /\ (m = 1%nat \/ exists x, In x xs /\ fD x = (m * m)%nat)
  /\ forall i p l k f, (p < 2)%nat -> (k < 2 * l + 1)%nat ->
       comp y i p l k f = sum_R (map (fun x => comp x i p l k f) xs).

Lemma add_is_sum : forall xs y, add xs = Ok y -> is_sum xs y.
Proof.
  intros xs y H. destruct (add_ok_inv xs y H) as [x0 [t [-> Hc]]].
  destruct (add_ok x0 t Hc) as [m [y' [E [V [Hm [HB [HF [Hd [HS [HD [HM HC]]]]]]]]]]].
  rewrite H in E. injection E as <-. exists m. repeat split; try assumption; try apply V.
  apply Forall_forall. intros x Hx. rewrite Forall_forall in Hc, HD.
  destruct (Hc x Hx) as [a [b [c d]]]. repeat split; try congruence; now apply HD.
Qed.

Lemma add_of_compatible : forall xs, xs <> [] -> (forall x x', In x xs -> In x' xs -> compatible x x') ->
  exists y, add xs = Ok y.
Proof.
  intros [|x0 t] Hne H; [congruence|].
  destruct (add_ok x0 t) as [m [y [E _]]]; [|now exists y].
  apply Forall_forall. intros x Hx. apply H; [now left|exact Hx].
Qed.

Lemma is_sum_compatible : forall xs y, is_sum xs y -> forall x x', In x xs -> In x' xs -> compatible x x'.
Proof.
  intros xs y [m [_ [_ [_ [H _]]]]] x x' Hx Hx'. rewrite Forall_forall in H.
  destruct (H x Hx) as [a [b [c [d _]]]]. destruct (H x' Hx') as [a' [b' [c' [d' _]]]].
  repeat split; congruence.
Qed.

(** Two sums of lists with the same members' extents and the same total agree. *)
Lemma is_sum_unique : forall xs xs' y y', xs <> [] -> is_sum xs y -> is_sum xs' y' ->
  fB y = fB y' -> fF y = fF y' -> fdt y = fdt y' -> fS y = fS y' -> fD y = fD y' ->
  (forall i p l k f, (p < 2)%nat -> (k < 2 * l + 1)%nat ->
     sum_R (map (fun x => comp x i p l k f) xs) = sum_R (map (fun x => comp x i p l k f) xs')) ->
  same_feature y y'.
Proof.
  intros xs xs' y y' Hne [m [V [Hm [HS [HF [HM HC]]]]]] [m' [V' [Hm' [HS' [HF' [HM' HC']]]]]] EB EF Ed ES ED H.
  assert (m = m') by (destruct V as [_ a], V' as [_ b]; nia). subst m'.
  apply (comp_determines m); try assumption.
  intros i p l k f Hp Hl Hk. rewrite HC, HC' by assumption. now apply H.
Qed.

Lemma sum_R_perm : forall a b, Permutation a b -> sum_R a = sum_R b.
Proof. intros a b H. induction H; simpl; lra. Qed.

Lemma existsb_perm : forall (A : Type) (g : A -> bool) a b, Permutation a b -> existsb g a = existsb g b.
Proof.
  intros A g a b H. apply eq_iff_eq_true. rewrite !existsb_exists.
  split; intros [x [Hx E]]; exists x; (split; [|exact E]).
  - now apply (Permutation_in x H).
  - now apply (Permutation_in x (Permutation_sym H)).
Qed.

Lemma add_permutation : forall xs xs' y, Permutation xs xs' -> add xs = Ok y ->
  exists y', add xs' = Ok y' /\ same_feature y y'.
Proof.
  intros xs xs' y HP E. pose proof (add_is_sum _ _ E) as Hs.
  assert (Hne : xs <> []) by (intros ->; discriminate).
  assert (Hne' : xs' <> []) by (intros ->; apply Hne; now apply Permutation_nil, Permutation_sym).
  destruct (add_of_compatible xs' Hne') as [y' E'].
  { intros x x' Hx Hx'. apply (is_sum_compatible xs y Hs); apply (Permutation_in _ (Permutation_sym HP)); assumption. }
  exists y'. split; [exact E'|]. pose proof (add_is_sum _ _ E') as Hs'.
  pose proof Hs as [m [V [Hm [HS [HF [HM HC]]]]]]. pose proof Hs' as [m' [V' [Hm' [HS' [HF' [HM' HC']]]]]].
  rewrite Forall_forall in HF, HF'.
  destruct xs as [|a t]; [congruence|].
  assert (Ha' : In a xs') by (apply (Permutation_in a HP); now left).
  destruct (HF a ltac:(now left)) as [a1 [a2 [a3 [a4 a5]]]]. destruct (HF' a Ha') as [b1 [b2 [b3 [b4 b5]]]].
  assert (Em : m = m').
  { assert (m <= m')%nat.
    { destruct HM as [->|[x [Hx Ex]]]; [lia|]. destruct (HF' x (Permutation_in x HP Hx)) as [_ [_ [_ [_ Hx5]]]].
      rewrite Ex in Hx5. apply (proj1 (sq_le _ _)) in Hx5; lia. }
    assert (m' <= m)%nat.
    { destruct HM' as [->|[x [Hx Ex]]]; [lia|]. destruct (HF x (Permutation_in x (Permutation_sym HP) Hx)) as [_ [_ [_ [_ Hx5]]]].
      rewrite Ex in Hx5. apply (proj1 (sq_le _ _)) in Hx5; lia. }
    lia. }
  apply (is_sum_unique (a :: t) xs'); try assumption; try congruence.
  - rewrite HS, HS'. now rewrite (existsb_perm _ _ _ _ HP).
  - destruct V as [_ ->], V' as [_ ->]. now subst.
  - intros. apply sum_R_perm. now apply Permutation_map.
Qed.

(** Adding in two stages gives the same as adding everything at once. *)
Lemma add_staged : forall xs ys w, xs <> [] -> add (xs ++ ys) = Ok w ->
  exists y z, add xs = Ok y /\ add (y :: ys) = Ok z /\ same_feature z w.
Proof.
  intros xs ys w Hne E. pose proof (add_is_sum _ _ E) as Hs.
  destruct (add_of_compatible xs Hne) as [y Ey].
  { intros x x' Hx Hx'. apply (is_sum_compatible _ _ Hs); apply in_or_app; now left. }
  pose proof (add_is_sum _ _ Ey) as Hy.
  pose proof Hs as [m [V [Hm [HS [HF [HM HC]]]]]]. pose proof Hy as [m1 [V1 [Hm1 [HS1 [HF1 [HM1 HC1]]]]]].
  rewrite Forall_forall in HF, HF1.
  destruct xs as [|a t]; [congruence|].
  destruct (HF a ltac:(now left)) as [a1 [a2 [a3 [a4 a5]]]]. destruct (HF1 a ltac:(now left)) as [b1 [b2 [b3 [b4 b5]]]].
  destruct (add_of_compatible (y :: ys) ltac:(discriminate)) as [z Ez].
  { assert (Hall : forall x, In x (y :: ys) -> fB x = fB w /\ fF x = fF w /\ fdt x = fdt w /\ well_formed x).
    { intros x [<-|Hx].
      - repeat split; try congruence. now exists m1.
      - destruct (HF x ltac:(apply in_or_app; now right)) as [c1 [c2 [c3 [c4 c5]]]]. auto. }
    intros x x' Hx Hx'. destruct (Hall x Hx) as [c1 [c2 [c3 c4]]]. destruct (Hall x' Hx') as [d1 [d2 [d3 d4]]].
    repeat split; congruence. }
  exists y, z. split; [exact Ey|]. split; [exact Ez|].
  pose proof (add_is_sum _ _ Ez) as Hz. pose proof Hz as [m2 [V2 [Hm2 [HS2 [HF2 [HM2 HC2]]]]]].
  rewrite Forall_forall in HF2. destruct (HF2 y ltac:(now left)) as [e1 [e2 [e3 [e4 e5]]]].
  assert (Em : m2 = m).
  { assert (m1 <= m2)%nat by (destruct V1 as [_ HV1]; rewrite HV1 in e5; apply (proj1 (sq_le _ _)) in e5; lia).
    assert (m1 <= m)%nat.
    { destruct HM1 as [->|[x [Hx Ex]]]; [lia|]. destruct (HF x ltac:(apply in_or_app; now left)) as [_ [_ [_ [_ Hx5]]]].
      rewrite Ex in Hx5. apply (proj1 (sq_le _ _)) in Hx5; lia. }
    assert (m2 <= m)%nat.
    { destruct HM2 as [->|[x [[<-|Hx] Ex]]]; [lia| |].
      - destruct V1 as [_ HV1]. nia.
      - destruct (HF x ltac:(apply in_or_app; now right)) as [_ [_ [_ [_ Hx5]]]]. rewrite Ex in Hx5. apply (proj1 (sq_le _ _)) in Hx5; lia. }
    assert (m <= m2)%nat.
    { destruct HM as [->|[x [Hx Ex]]]; [lia|]. apply in_app_or in Hx. destruct Hx as [Hx|Hx].
      - destruct (HF1 x Hx) as [_ [_ [_ [_ Hx5]]]]. rewrite Ex in Hx5. apply (proj1 (sq_le _ _)) in Hx5; lia.
      - destruct (HF2 x ltac:(now right)) as [_ [_ [_ [_ Hx5]]]]. rewrite Ex in Hx5. apply (proj1 (sq_le _ _)) in Hx5; lia. }
    lia. }
  apply (is_sum_unique (y :: ys) ((a :: t) ++ ys)); try assumption; try congruence; try discriminate.
  - rewrite HS2, HS, existsb_app. cbn [existsb]. rewrite HS1. cbn [existsb].
    destruct ((fS a =? 2)%nat || existsb (fun x => (fS x =? 2)%nat) t)%bool; reflexivity.
  - destruct V as [_ ->], V2 as [_ ->]. now subst.
  - intros i p l k f Hp Hk. rewrite map_app, sum_R_app. rewrite <- HC1 by assumption. reflexivity.
Qed.

(** Same shape and dtype. *)
Definition meta_eq (x y : feat) : Prop :=
  fB x = fB y /\ fS x = fS y /\ fD x = fD y /\ fF x = fF y /\ fdt x = fdt y.

Lemma Forall2_existsb : forall xs xs', Forall2 meta_eq xs xs' ->
  existsb (fun x => (fS x =? 2)%nat) xs = existsb (fun x => (fS x =? 2)%nat) xs'.
Proof. intros xs xs' H. induction H as [|x x' xs xs' [_ [E _]] H IH]; simpl; [reflexivity|]. now rewrite E, IH. Qed.

Lemma Forall2_in_r : forall (A B : Type) (P : A -> B -> Prop) xs xs' x', Forall2 P xs xs' -> In x' xs' -> exists x, In x xs /\ P x x'.
Proof.
  intros A B P xs xs' x' H. induction H as [|a b xs xs' Hab H IH]; intros Hin; [destruct Hin|].
  destruct Hin as [<-|Hin]; [exists a; split; [now left|exact Hab]|].
  destruct (IH Hin) as [x [Hx HP]]. exists x. split; [now right|exact HP].
Qed.

Lemma Forall2_in_l : forall (A B : Type) (P : A -> B -> Prop) xs xs' x, Forall2 P xs xs' -> In x xs -> exists x', In x' xs' /\ P x x'.
Proof.
  intros A B P xs xs' x H. induction H as [|a b xs xs' Hab H IH]; intros Hin; [destruct Hin|].
  destruct Hin as [<-|Hin]; [exists b; split; [now left|exact Hab]|].
  destruct (IH Hin) as [x' [Hx HP]]. exists x'. split; [now right|exact HP].
Qed.

Lemma add_meta : forall xs xs' y, Forall2 meta_eq xs xs' -> add xs = Ok y ->
  exists y', add xs' = Ok y' /\ meta_eq y y'.
Proof.
  intros xs xs' y HM E. pose proof (add_is_sum _ _ E) as Hs.
  assert (Hne : xs <> []) by (intros ->; discriminate).
  assert (Hne' : xs' <> []) by (intros ->; inversion HM; congruence).
  destruct (add_of_compatible xs' Hne') as [y' E'].
  { intros x x' Hx Hx'. destruct (Forall2_in_r _ _ _ _ _ _ HM Hx) as [u [Hu [u1 [u2 [u3 [u4 u5]]]]]].
    destruct (Forall2_in_r _ _ _ _ _ _ HM Hx') as [v [Hv [v1 [v2 [v3 [v4 v5]]]]]].
    destruct (is_sum_compatible _ _ Hs u v Hu Hv) as [c1 [c2 [c3 [n [c4 c5]]]]].
    repeat split; try congruence. exists n. split; congruence. }
  exists y'. split; [exact E'|].
  pose proof (add_is_sum _ _ E') as Hs'.
  pose proof Hs as [m [V [Hm [HS [HF [HMx HC]]]]]]. pose proof Hs' as [m' [V' [Hm' [HS' [HF' [HMx' HC']]]]]].
  rewrite Forall_forall in HF, HF'.
  assert (Em : m = m').
  { assert (m <= m')%nat.
    { destruct HMx as [->|[x [Hx Ex]]]; [lia|].
      destruct (Forall2_in_l _ _ _ _ _ _ HM Hx) as [u [Hu [_ [_ [u3 _]]]]].
      destruct (HF' u Hu) as [_ [_ [_ [_ Hu5]]]]. rewrite <- u3, Ex in Hu5. apply (proj1 (sq_le _ _)) in Hu5; lia. }
    assert (m' <= m)%nat.
    { destruct HMx' as [->|[x [Hx Ex]]]; [lia|].
      destruct (Forall2_in_r _ _ _ _ _ _ HM Hx) as [u [Hu [_ [_ [u3 _]]]]].
      destruct (HF u Hu) as [_ [_ [_ [_ Hu5]]]]. rewrite u3, Ex in Hu5. apply (proj1 (sq_le _ _)) in Hu5; lia. }
    lia. }
  destruct xs as [|a t]; [congruence|].
  destruct (Forall2_in_l _ _ _ _ _ a HM ltac:(now left)) as [a' [Ha' [u1 [u2 [u3 [u4 u5]]]]]].
  destruct (HF a ltac:(now left)) as [a1 [a2 [a3 _]]]. destruct (HF' a' Ha') as [b1 [b2 [b3 _]]].
  repeat split; try congruence.
  - rewrite HS, HS'. now rewrite (Forall2_existsb _ _ HM).
  - destruct V as [_ ->], V' as [_ ->]. now subst.
Qed.

Lemma reflect_ok_wf : forall x y, reflect x = Ok y -> well_formed x.
Proof.
  intros x y H. unfold reflect in H. destruct (extract_max_degree_and_check_shape (shape_of x)) as [L|e] eqn:E; [|discriminate].
  destruct (extract_ok _ _ E) as [n [Hn _]]. now exists n.
Qed.

Lemma reflect_spec : forall x y, reflect x = Ok y ->
  meta_eq x y /\ forall i p l k f, (p < 2)%nat -> (k < 2 * l + 1)%nat ->
       comp y i p l k f = if (p =? 1)%nat then - comp x i p l k f else comp x i p l k f.
Proof.
  intros x y H. destruct (reflect_ok_wf x y H) as [n Hn].
  destruct (reflect_comp n x Hn) as [y' [E [V [H1 [H2 [H3 [H4 H5]]]]]]]. rewrite H in E. injection E as <-.
  split; [|exact H5]. repeat split; try congruence. destruct V as [_ ->], Hn as [_ ->]. reflexivity.
Qed.

Lemma rotate_wf : forall x w y, rotate x w = Ok y -> well_formed x.
Proof.
  intros x w y H. unfold rotate in H. destruct (extract_max_degree_and_check_shape (shape_of x)) as [L|e] eqn:E; [|discriminate].
  destruct (extract_ok _ _ E) as [n [Hn _]]. now exists n.
Qed.

Lemma rotate_spec : forall shared D x y, block_diagonal D -> rotate x (wigner_for shared D x) = Ok y ->
  meta_eq x y /\ forall i p l k f, (p < 2)%nat -> (k < 2 * l + 1)%nat ->
       comp y i p l k f = rsum (2 * l + 1) (fun k' => comp x i p l k' f * D (wigner_batch shared i) (l * l + k')%nat (l * l + k)%nat).
Proof.
  intros shared D x y HD H. destruct (rotate_wf x _ y H) as [n Hn].
  destruct (rotate_comp n x shared D Hn HD) as [y' [E [V [H1 [H2 [H3 [H4 H5]]]]]]]. rewrite H in E. injection E as <-.
  split; [|exact H5]. repeat split; try congruence. destruct V as [_ ->], Hn as [_ ->]. reflexivity.
Qed.

Lemma meta_valid : forall n x y, meta_eq x y -> valid n x -> valid n y.
Proof. intros n x y [_ [E1 [E2 _]]] [a b]. split; congruence. Qed.

Lemma Forall2_impl' : forall (A B : Type) (P Q : A -> B -> Prop) xs ys, (forall x y, P x y -> Q x y) -> Forall2 P xs ys -> Forall2 Q xs ys.
Proof. intros A B P Q xs ys H H2. induction H2; constructor; auto. Qed.

Lemma add_reflect : forall xs xs' y, Forall2 (fun x x' => reflect x = Ok x') xs xs' -> add xs = Ok y ->
  exists y' z, add xs' = Ok y' /\ reflect y = Ok z /\ same_feature y' z.
Proof.
  intros xs xs' y HF E.
  assert (HM : Forall2 meta_eq xs xs') by (eapply Forall2_impl'; [|exact HF]; intros a b Hab; apply (reflect_spec a b Hab)).
  destruct (add_meta xs xs' y HM E) as [y' [E' Hy']]. exists y'.
  destruct (add_is_sum _ _ E) as [m [V [Hm [_ [_ [_ HC]]]]]].
  destruct (reflect_comp m y V) as [z [Ez [Vz [B1 [S1 [F1 [D1 C1]]]]]]].
  exists z. split; [exact E'|]. split; [exact Ez|].
  destruct (add_is_sum _ _ E') as [m' [V' [Hm' [_ [_ [_ HC']]]]]].
  assert (m' = m) by (apply (valid_unique m' m y'); [exact V'|now apply (meta_valid m y)]). subst m'.
  destruct Hy' as [M1 [M2 [M3 [M4 M5]]]].
  apply (comp_determines m); try assumption; try congruence.
  intros i p l k f Hp Hl Hk. rewrite C1, HC', HC by assumption.
  clear - HF Hp Hk. induction HF as [|a b xs xs' Hab HF IH]; simpl.
  - destruct (p =? 1)%nat; ring.
  - rewrite IH. destruct (reflect_spec a b Hab) as [_ Hc]. rewrite Hc by assumption. destruct (p =? 1)%nat; ring.
Qed.

Lemma add_rotate : forall shared D xs xs' y, block_diagonal D ->
  Forall2 (fun x x' => rotate x (wigner_for shared D x) = Ok x') xs xs' -> add xs = Ok y ->
  exists y' z, add xs' = Ok y' /\ rotate y (wigner_for shared D y) = Ok z /\ same_feature y' z.
Proof.
  intros shared D xs xs' y HD HF E.
  assert (HM : Forall2 meta_eq xs xs') by (eapply Forall2_impl'; [|exact HF]; intros a b Hab; apply (rotate_spec shared D a b HD Hab)).
  destruct (add_meta xs xs' y HM E) as [y' [E' Hy']]. exists y'.
  destruct (add_is_sum _ _ E) as [m [V [Hm [_ [_ [_ HC]]]]]].
  destruct (rotate_comp m y shared D V HD) as [z [Ez [Vz [B1 [S1 [F1 [D1 C1]]]]]]].
  exists z. split; [exact E'|]. split; [exact Ez|].
  destruct (add_is_sum _ _ E') as [m' [V' [Hm' [_ [_ [_ HC']]]]]].
  assert (m' = m) by (apply (valid_unique m' m y'); [exact V'|now apply (meta_valid m y)]). subst m'.
  destruct Hy' as [M1 [M2 [M3 [M4 M5]]]].
  apply (comp_determines m); try assumption; try congruence.
  intros i p l k f Hp Hl Hk. rewrite C1, HC' by assumption.
  rewrite (rsum_ext (2 * l + 1) _ (fun k' => sum_R (map (fun x => comp x i p l k' f) xs) * D (wigner_batch shared i) (l * l + k')%nat (l * l + k)%nat)).
  2:{ intros k' Hk'. rewrite HC by assumption. reflexivity. }
  clear - HF Hp Hk HD. induction HF as [|a b xs xs' Hab HF IH]; simpl.
  - symmetry. apply rsum_zero. intros. ring.
  - rewrite IH. destruct (rotate_spec shared D a b HD Hab) as [_ Hc]. rewrite Hc by assumption.
    rewrite <- rsum_plus. apply rsum_ext. intros. ring.
Qed.

Lemma reflect_involutive : forall x, well_formed x -> exists y z, reflect x = Ok y /\ reflect y = Ok z /\ same_feature z x.
Proof.
  intros x [n Hn]. destruct (reflect_comp n x Hn) as [y [Ey [Vy [B1 [S1 [F1 [D1 C1]]]]]]].
  destruct (reflect_comp n y Vy) as [z [Ez [Vz [B2 [S2 [F2 [D2 C2]]]]]]].
  exists y, z. split; [exact Ey|]. split; [exact Ez|].
  apply (comp_determines n); try assumption; try congruence.
  intros i p l k f Hp Hl Hk. rewrite C2, C1 by assumption. destruct (p =? 1)%nat; ring.
Qed.

Lemma reflect_rotate : forall shared D x, block_diagonal D -> well_formed x ->
  exists a ab b ba, reflect x = Ok a /\ rotate a (wigner_for shared D a) = Ok ab
    /\ rotate x (wigner_for shared D x) = Ok b /\ reflect b = Ok ba /\ same_feature ab ba.
Proof.
  intros shared D x HD [n Hn].
  destruct (reflect_comp n x Hn) as [a [Ea [Va [B1 [S1 [F1 [D1 C1]]]]]]].
  destruct (rotate_comp n a shared D Va HD) as [ab [Eab [Vab [B2 [S2 [F2 [D2 C2]]]]]]].
  destruct (rotate_comp n x shared D Hn HD) as [b [Eb [Vb [B3 [S3 [F3 [D3 C3]]]]]]].
  destruct (reflect_comp n b Vb) as [ba [Eba [Vba [B4 [S4 [F4 [D4 C4]]]]]]].
  exists a, ab, b, ba. do 4 (split; [assumption|]).
  apply (comp_determines n); try assumption; try congruence.
  intros i p l k f Hp Hl Hk. rewrite C2, C4, C3 by assumption.
  destruct (p =? 1)%nat eqn:EP.
  - rewrite <- rsum_opp. apply rsum_ext. intros k' Hk'. rewrite C1, EP by assumption. ring.
  - apply rsum_ext. intros k' Hk'. rewrite C1, EP by assumption. ring.
Qed.

Lemma reflect_change : forall x m incl, well_formed x ->
  exists a ab b ba, reflect x = Ok a /\ change_max_degree_or_type a (Some (Z.of_nat m)) incl = Ok ab
    /\ change_max_degree_or_type x (Some (Z.of_nat m)) incl = Ok b /\ reflect b = Ok ba /\ same_feature ab ba.
Proof.
  intros x m incl [n Hn].
  assert (Em : Z.of_nat m = (Z.of_nat (S m) - 1)%Z) by lia.
  destruct (reflect_comp n x Hn) as [a [Ea [Va [B1 [S1 [F1 [D1 C1]]]]]]].
  destruct (change_comp n a (S m) (Some (Z.of_nat m)) incl Va) as [ab [Eab [Vab [B2 [S2 [F2 [D2 C2]]]]]]];
    [left; now rewrite Em|left; lia|].
  destruct (change_comp n x (S m) (Some (Z.of_nat m)) incl Hn) as [b [Eb [Vb [B3 [S3 [F3 [D3 C3]]]]]]];
    [left; now rewrite Em|left; lia|].
  destruct (reflect_comp (S m) b Vb) as [ba [Eba [Vba [B4 [S4 [F4 [D4 C4]]]]]]].
  assert (ES : fS ab = fS b) by (rewrite S2, S3, S1; reflexivity).
  exists a, ab, b, ba. do 4 (split; [assumption|]).
  apply (comp_determines (S m)); try assumption; try congruence.
  intros i p l k f Hp Hl Hk. rewrite C2, C4, C3, C1, ES by assumption.
  destruct ((l <? S m)%nat && ((fS b =? 2)%nat || (p =? l mod 2)%nat)), (p =? 1)%nat; ring.
Qed.

Lemma rotate_change : forall shared D x m incl, block_diagonal D -> well_formed x ->
  exists a ab b ba, rotate x (wigner_for shared D x) = Ok a /\ change_max_degree_or_type a (Some (Z.of_nat m)) incl = Ok ab
    /\ change_max_degree_or_type x (Some (Z.of_nat m)) incl = Ok b /\ rotate b (wigner_for shared D b) = Ok ba /\ same_feature ab ba.
Proof.
  intros shared D x m incl HD [n Hn].
  assert (Em : Z.of_nat m = (Z.of_nat (S m) - 1)%Z) by lia.
  destruct (rotate_comp n x shared D Hn HD) as [a [Ea [Va [B1 [S1 [F1 [D1 C1]]]]]]].
  destruct (change_comp n a (S m) (Some (Z.of_nat m)) incl Va) as [ab [Eab [Vab [B2 [S2 [F2 [D2 C2]]]]]]];
    [left; now rewrite Em|left; lia|].
  destruct (change_comp n x (S m) (Some (Z.of_nat m)) incl Hn) as [b [Eb [Vb [B3 [S3 [F3 [D3 C3]]]]]]];
    [left; now rewrite Em|left; lia|].
  destruct (rotate_comp (S m) b shared D Vb HD) as [ba [Eba [Vba [B4 [S4 [F4 [D4 C4]]]]]]].
  assert (ES : fS ab = fS b) by (rewrite S2, S3, S1; reflexivity).
  exists a, ab, b, ba. do 4 (split; [assumption|]).
  apply (comp_determines (S m)); try assumption; try congruence.
  intros i p l k f Hp Hl Hk. rewrite C2, C4, ES by assumption.
  destruct ((l <? S m)%nat && ((fS b =? 2)%nat || (p =? l mod 2)%nat)) eqn:EC.
  - rewrite C1 by assumption. apply rsum_ext. intros k' Hk'. rewrite C3, EC by assumption. reflexivity.
  - symmetry. apply rsum_zero. intros k' Hk'. rewrite C3, EC by assumption. ring.
Qed.
