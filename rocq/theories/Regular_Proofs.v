(** Families of feature arrays whose entries belong to a class of functions (for example: continuous, differentiable
    or smooth functions) that is closed under sums and products: networks keep the entries in the class. *)
Require Import List Reals ZArith Bool Lia Lra.
Require Import ZifyNat.
Require Import Verif.Base Verif.RSum Verif.Features_Model Verif.Features_Spec Verif.Features_Proofs Verif.Activations_Model Verif.Activations_Proofs Verif.Activations_Props
  Verif.Indexed_Model Verif.Indexed_Spec Verif.Indexed_Red_Proofs Verif.Indexed_Props Verif.Modules_Model Verif.Modules_Spec Verif.Modules_Graph_Spec Verif.Modules_Proofs Verif.Modules_Equiv_Proofs Verif.Modules_Message_Proofs Verif.Modules_Graph_Proofs
  Verif.Modules_Relabel_Proofs Verif.Network_Spec Verif.Network_Props Verif.Shapes_Proofs Verif.Locality_Spec Verif.Locality_Proofs Verif.Regular_Spec.
Import ListNotations.
Open Scope R_scope.

(** A class of functions on T; only the values at the points in G matter. *)
Record closed_class {T : Type} (G : T -> Prop) (K : (T -> R) -> Prop) : Prop := {
  kc_ext : forall u v : T -> R, (forall t, G t -> u t = v t) -> K u -> K v;
  kc_const : forall c, K (fun _ => c);
  kc_plus : forall u v, K u -> K v -> K (fun t => u t + v t);
  kc_mult : forall u v, K u -> K v -> K (fun t => u t * v t) }.

(** The class is closed under composition with g. *)
Definition closed_under {T : Type} (K : (T -> R) -> Prop) (g : R -> R) : Prop := forall u, K u -> K (fun t => g (u t)).

Section Classes.
Variables (T : Type) (t0 : T) (G : T -> Prop) (K : (T -> R) -> Prop).
Hypothesis C : closed_class G K.

Lemma k_eq : forall u v : T -> R, (forall t, u t = v t) -> K u -> K v.
Proof using C. intros u v E. apply (kc_ext _ _ C). auto. Qed.
Lemma k_rsum : forall n (u : T -> nat -> R), (forall k, (k < n)%nat -> K (fun t => u t k)) -> K (fun t => rsum n (u t)).
Proof using C.
  intros n u H. induction n as [|n IH]; [exact (kc_const _ _ C 0)|]. apply (k_eq (fun t => rsum n (u t) + u t n)); [reflexivity|].
  apply (kc_plus _ _ C); [apply IH; intros; apply H; lia|apply H; lia].
Qed.
Lemma k_list_nth : forall (l : list nat) (h : T -> nat -> R) k, (forall n, K (fun t => h t n)) -> K (fun t => nth k (map (h t) l) 0).
Proof using C. intros l h k H. revert k. induction l as [|a l IH]; intros [|k]; try exact (kc_const _ _ C 0); [apply H|apply IH]. Qed.
Lemma k_list_sum : forall (A : Type) (l : list A) (h : T -> A -> R), (forall a, In a l -> K (fun t => h t a)) -> K (fun t => Indexed_Spec.list_sum (map (h t) l)).
Proof using C.
  intros A l h H. induction l as [|a l IH]; [exact (kc_const _ _ C 0)|]. apply (k_eq (fun t => h t a + Indexed_Spec.list_sum (map (h t) l))); [reflexivity|].
  apply (kc_plus _ _ C); [apply H; now left|apply IH; intros; apply H; now right].
Qed.

(** Arrays with one entry for each of N nodes. *)
Definition family (N S0 D F d : nat) (x : T -> feat) : Prop :=
  (forall t, fB (x t) = [N] /\ fS (x t) = S0 /\ fD (x t) = D /\ fF (x t) = F /\ fdt (x t) = d) /\ forall n s c f, K (fun t => fv (x t) [n] s c f).
Definition regular (N : nat) (x : T -> feat) : Prop := exists S0 D F d, family N S0 D F d x.

Lemma family_eta : forall N S0 D F d x, family N S0 D F d x -> forall t, x t = mkFeat [N] S0 D F d (fv (x t)).
Proof using. intros N S0 D F d x [H _] t. destruct (H t) as [HB [HS [HD [HF Hd]]]]. destruct (x t). cbn in *. congruence. Qed.

(** Results of a program that is run for every t. *)
Lemma family_result : forall N S0 D F d (v : T -> list nat -> nat -> nat -> nat -> R) (y : T -> feat),
  (forall t, Ok (mkFeat [N] S0 D F d (v t)) = Ok (y t)) -> (forall n s c f, K (fun t => v t [n] s c f)) -> regular N y.
Proof using C.
  intros N S0 D F d v y E H. exists S0, D, F, d. assert (EY : forall t, y t = mkFeat [N] S0 D F d (v t)) by (intros t; specialize (E t); congruence). split.
  - intros t. rewrite EY. cbn. auto.
  - intros n s c f. apply (k_eq (fun t => v t [n] s c f)); [intros t; rewrite EY; reflexivity|apply H].
Qed.

Ltac kk := repeat first
  [ assumption | exact (kc_const _ _ C _) | apply (kc_plus _ _ C) | apply (kc_mult _ _ C) | apply k_rsum; intros
  | match goal with |- K (fun t => if ?b then _ else _) => destruct b end ].

Lemma k_cat : forall (l : list nat) (p : T -> nat -> piece) (z : nat -> nat), (forall t a, fst (p t a) = z a) -> (forall a n s c f, K (fun t => snd (p t a) [n] s c f)) ->
  forall n s c f, K (fun t => cat_value (map (p t) l) [n] s c f).
Proof using C.
  intros l p z Hz Hp n s. induction l as [|a l IH]; intros c f; [exact (kc_const _ _ C 0)|]. cbn [map].
  apply (k_eq (fun t => if (c <? z a)%nat then snd (p t a) [n] s c f else cat_value (map (p t) l) [n] s (c - z a) f)).
  - intros t. cbn [cat_value]. specialize (Hz t a). destruct (p t a) as [m v]. cbn [fst snd] in *. subst m. reflexivity.
  - destruct (c <? z a)%nat; [apply Hp|apply IH].
Qed.

Lemma cat_size_same : forall (l : list nat) (p : T -> nat -> piece) (z : nat -> nat), (forall t a, fst (p t a) = z a) ->
  forall t, cat_size (map (p t) l) = cat_size (map (fun a => (z a, fun _ _ _ _ => 0)) l).
Proof using. intros l p z Hz t. induction l as [|a l IH]; [reflexivity|]. cbn [map cat_size fold_right] in *. rewrite Hz. cbn [fst]. f_equal. exact IH. Qed.

Lemma concatenate_family : forall N S0 D F d v S1 l (p : T -> nat -> piece) (z : nat -> nat) y, (forall t a, fst (p t a) = z a) -> (forall a n s c f, K (fun t => snd (p t a) [n] s c f)) ->
  (forall t, concatenate (mkFeat [N] S0 D F d (v t)) S1 (map (p t) l) = Ok (y t)) ->
  family N S1 (cat_size (map (fun a => (z a, fun _ _ _ _ => 0)) l)) F d y.
Proof using C t0.
  intros N S0 D F d v S1 l p z y Hz Hp H. assert (EY : forall t, y t = mkFeat [N] S1 (cat_size (map (p t) l)) F d (cat_value (map (p t) l))).
  { intros t. specialize (H t). unfold concatenate in H. destruct l; cbn [map] in *; [discriminate|]. injection H as <-. reflexivity. }
  split.
  - intros t. rewrite EY, (cat_size_same l p z Hz t). cbn. auto.
  - intros n s c f. apply (k_eq (fun t => cat_value (map (p t) l) [n] s c f)); [intros t; rewrite EY; reflexivity|]. exact (k_cat l p z Hz Hp n s c f).
Qed.

(** Splits a family of runs of [bind]. *)
Lemma bind_family : forall (A B : Type) (a : T -> result A) (b : T -> A -> result B) (y : T -> B), (forall t, bind (a t) (b t) = Ok (y t)) ->
  exists u : T -> A, (forall t, a t = Ok (u t)) /\ forall t, b t (u t) = Ok (y t).
Proof using.
  intros A B a b y H. exists (fun t => match a t as r return bind r (b t) = Ok (y t) -> A with Ok v => fun _ => v | Err e => fun X => match (match X in _ = r return match r with Ok _ => False | Err _ => True end with eq_refl => I end) with end end (H t)).
  split; intros t; generalize (H t); destruct (a t); cbn; intros X; try discriminate; [reflexivity|exact X].
Qed.

Lemma dense_regular : forall N F ub P x y, regular N x -> (forall t, dense F ub P (x t) = Ok (y t)) -> regular N y.
Proof using C t0.
  intros N F ub P x y [S0 [D [F0 [d Hx]]]] H. pose proof (family_eta _ _ _ _ _ _ Hx) as E. destruct Hx as [_ Hx]. set (v := fun t => fv (x t)) in *.
  assert (H' : forall t, dense F ub P (mkFeat [N] S0 D F0 d (v t)) = Ok (y t)) by (intros t; unfold v; rewrite <- E; apply H). clear H E.
  assert (PK : forall K0 b p s l n s' c f, K (fun t => snd (apply_dense F0 K0 b (degree_slice (mkFeat [N] S0 D F0 d (v t)) p l)) [n] s' (s + c)%nat f)).
  { intros K0 b p s l n s' c f. cbn [apply_dense snd degree_slice fv fD]. destruct b; kk; apply Hx. }
  unfold dense in H'. unfold shape_of, with_features in H'; cbn [fB fS fD fF fdt] in H'. destruct (extract_max_degree_and_check_shape ([N] ++ [S0; D; F0])) as [L|]; [|specialize (H' t0); cbn [bind] in H'; discriminate]. cbn [bind] in H'. cbv zeta in H'. cbn [fB fS fD fF fdt] in H'.
  destruct (S0 =? 2)%nat.
  - apply bind_family in H' as [e [He H']]. apply bind_family in H' as [o [Ho H']].
    apply concatenate_family with (z := fun l => fst (degree_slice (mkFeat [N] S0 D F0 d (v t0)) 0 l)) in He; [|reflexivity|intros a n s c f; exact (PK _ _ _ 0%nat _ _ _ _ _)].
    apply concatenate_family with (z := fun l => fst (degree_slice (mkFeat [N] S0 D F0 d (v t0)) 0 l)) in Ho; [|reflexivity|intros a n s c f; exact (PK _ _ _ 0%nat _ _ _ _ _)].
    destruct He as [He1 He2]. destruct Ho as [Ho1 Ho2].
    eapply (family_result N 2 _ F d (fun t i s c f => if (s =? 0)%nat then fv (e t) i 0%nat c f else fv (o t) i 0%nat c f)).
    + intros t. rewrite <- H'. destruct (He1 t) as [_ [_ [-> _]]]. reflexivity.
    + intros n s c f. destruct (s =? 0)%nat; [apply He2|apply Ho2].
  - destruct (S0 =? 1)%nat; [|specialize (H' t0); cbn [bind] in H'; discriminate].
    apply concatenate_family with (z := fun l => fst (degree_slice (mkFeat [N] S0 D F0 d (v t0)) 0 l)) in H'; [|reflexivity|intros a n s c f; exact (PK _ _ _ 0%nat _ _ _ _ _)].
    unfold regular. eauto.
Qed.

Lemma change_regular : forall N md incl x y, regular N x -> (forall t, change_max_degree_or_type (x t) md incl = Ok (y t)) -> regular N y.
Proof using C t0.
  intros N md incl x y [S0 [D [F0 [d Hx]]]] H. pose proof (family_eta _ _ _ _ _ _ Hx) as E. destruct Hx as [_ Hx]. set (v := fun t => fv (x t)) in *.
  assert (H' : forall t, change_max_degree_or_type (mkFeat [N] S0 D F0 d (v t)) md incl = Ok (y t)) by (intros t; unfold v; rewrite <- E; apply H). clear H E.
  unfold change_max_degree_or_type in H'. unfold shape_of, with_features in H'; cbn [fB fS fD fF fdt fv] in H'. destruct (extract_max_degree_and_check_shape ([N] ++ [S0; D; F0])) as [L|]; [|specialize (H' t0); cbn [bind] in H'; discriminate]. cbn [bind] in H'. cbv zeta in H'.
  set (L' := match md with Some d0 => d0 | None => L end) in *. set (inc := match incl with Some b => b | None => negb (S0 =? 1)%nat end) in *.
  set (x1 := fun t => if (L' <? L)%Z then mkFeat [N] S0 (Nat.min (Z.to_nat ((L' + 1) * (L' + 1))) D) F0 d (v t)
      else if (L <? L')%Z then mkFeat [N] S0 (D + (Z.to_nat ((L' + 1) * (L' + 1)) - Z.to_nat ((L + 1) * (L + 1)))) F0 d (fun i s c f => if (c <? D)%nat then v t i s c f else 0)
      else mkFeat [N] S0 D F0 d (v t)) in *.
  assert (R1 : exists D1, family N S0 D1 F0 d x1).
  { unfold x1. destruct (L' <? L)%Z; [eexists; split; [intros t; cbn; auto|exact Hx]|]. destruct (L <? L')%Z; [|exists D; split; [intros t; cbn; auto|exact Hx]].
    eexists; split; [intros t; cbn; auto|]. intros n s c f. cbn [fv]. destruct (c <? D)%nat; [apply Hx|exact (kc_const _ _ C 0)]. }
  destruct R1 as [D1 R1]. pose proof (family_eta _ _ _ _ _ _ R1) as E1. destruct R1 as [F1 K1]. change (forall t, (if negb (S0 =? 1)%nat && negb inc
     then concatenate (x1 t) 1 (map (fun l => degree_slice (x1 t) (l mod 2) l) (seq 0 (Z.to_nat (L' + 1))))
     else if inc && negb (negb (S0 =? 1)%nat) then
       bind (concatenate (x1 t) 1 (map (fun l => if Nat.even l then degree_slice (x1 t) 0 l else zero_piece (degree_slice (x1 t) 0 l)) (seq 0 (Z.to_nat (L' + 1))))) (fun e =>
       bind (concatenate (x1 t) 1 (map (fun l => if negb (Nat.even l) then degree_slice (x1 t) 0 l else zero_piece (degree_slice (x1 t) 0 l)) (seq 0 (Z.to_nat (L' + 1))))) (fun o =>
       Ok (mkFeat (fB (x1 t)) 2 (fD e) (fF (x1 t)) (fdt (x1 t)) (fun i s c f => if (s =? 0)%nat then fv e i 0%nat c f else fv o i 0%nat c f))))
     else Ok (x1 t)) = Ok (y t)) in H'.
  clearbody x1. set (w := fun t => fv (x1 t)) in *. assert (HZ : forall p l t, fst (degree_slice (x1 t) p l) = fst (degree_slice (mkFeat [N] S0 D1 F0 d (fun _ _ _ _ => 0)) p l)) by (intros p l t; cbn [degree_slice fst fD]; destruct (F1 t) as [_ [_ [-> _]]]; reflexivity).
  assert (HK : forall p l n s c f, K (fun t => snd (degree_slice (x1 t) p l) [n] s c f)).
  { intros p l n s c f. apply (k_eq (fun t => fv (x1 t) [n] (p + s)%nat (Nat.min (l * l) D1 + c)%nat f)); [|apply K1]. intros t. cbn [degree_slice snd]. destruct (F1 t) as [_ [_ [-> _]]]. reflexivity. }
  destruct (negb (S0 =? 1)%nat && negb inc).
  - assert (H2 : forall t, concatenate (mkFeat [N] S0 D1 F0 d (w t)) 1 (map (fun l => degree_slice (x1 t) (l mod 2) l) (seq 0 (Z.to_nat (L' + 1)))) = Ok (y t)) by (intros t; unfold w; rewrite <- E1; apply H').
    apply concatenate_family with (z := fun l => fst (degree_slice (mkFeat [N] S0 D1 F0 d (fun _ _ _ _ => 0)) (l mod 2) l)) in H2; [unfold regular; eauto|intros t a; apply HZ|intros; apply HK].
  - destruct (inc && negb (negb (S0 =? 1)%nat)).
    + apply bind_family in H' as [e [He H']]. apply bind_family in H' as [o [Ho H']].
      assert (HE : forall t, concatenate (mkFeat [N] S0 D1 F0 d (w t)) 1 (map (fun l => if Nat.even l then degree_slice (x1 t) 0 l else zero_piece (degree_slice (x1 t) 0 l)) (seq 0 (Z.to_nat (L' + 1)))) = Ok (e t)) by (intros t; unfold w; rewrite <- E1; apply He).
      assert (HO : forall t, concatenate (mkFeat [N] S0 D1 F0 d (w t)) 1 (map (fun l => if negb (Nat.even l) then degree_slice (x1 t) 0 l else zero_piece (degree_slice (x1 t) 0 l)) (seq 0 (Z.to_nat (L' + 1)))) = Ok (o t)) by (intros t; unfold w; rewrite <- E1; apply Ho).
      apply concatenate_family with (z := fun l => fst (degree_slice (mkFeat [N] S0 D1 F0 d (fun _ _ _ _ => 0)) 0 l)) in HE;
        [|intros t a; destruct (Nat.even a); cbn [zero_piece fst]; apply HZ|intros a n s c f; destruct (Nat.even a); [apply HK|exact (kc_const _ _ C 0)]].
      apply concatenate_family with (z := fun l => fst (degree_slice (mkFeat [N] S0 D1 F0 d (fun _ _ _ _ => 0)) 0 l)) in HO;
        [|intros t a; destruct (negb (Nat.even a)); cbn [zero_piece fst]; apply HZ|intros a n s c f; destruct (negb (Nat.even a)); [apply HK|exact (kc_const _ _ C 0)]].
      destruct HE as [HE1 HE2]. destruct HO as [HO1 HO2].
      eapply (family_result N 2 _ F0 d (fun t i s c f => if (s =? 0)%nat then fv (e t) i 0%nat c f else fv (o t) i 0%nat c f)).
      * intros t. rewrite <- H'. destruct (HE1 t) as [_ [_ [-> _]]]. destruct (F1 t) as [-> [_ [_ [-> ->]]]]. reflexivity.
      * intros n s c f. destruct (s =? 0)%nat; [apply HE2|apply HO2].
    + exists S0, D1, F0, d. assert (EY : forall t, y t = x1 t) by (intros t; specialize (H' t); congruence). split; [intros t; rewrite EY; apply F1|]. intros n s c f. apply (k_eq (fun t => fv (x1 t) [n] s c f)); [intros t; now rewrite EY|apply K1].
Qed.

Section Tensors.
Variable cgf : Z -> Z -> Z -> result (nat -> nat -> nat -> R).

Lemma tensor_regular : forall N md incl P x x' y, regular N x -> regular N x' -> (forall t, any_tensor cgf md incl P (x t) (x' t) = Ok (y t)) -> regular N y.
Proof using C t0.
  intros N md incl P x x' y [S0 [D [F0 [d Hx]]]] [S1 [D1 [F1 [d1 Hx']]]] H.
  pose proof (family_eta _ _ _ _ _ _ Hx) as E. destruct Hx as [_ Hx]. set (v := fun t => fv (x t)) in *.
  pose proof (family_eta _ _ _ _ _ _ Hx') as E'. destruct Hx' as [_ Hx']. set (v' := fun t => fv (x' t)) in *.
  assert (H' : forall t, any_tensor cgf md incl P (mkFeat [N] S0 D F0 d (v t)) (mkFeat [N] S1 D1 F1 d1 (v' t)) = Ok (y t)) by (intros t; unfold v, v'; rewrite <- E, <- E'; apply H). clear H E E'.
  destruct P as [P|P]; cbn [any_tensor] in H'.
  - unfold tensor in H'. unfold shape_of, with_features in H'; cbn [fB fS fD fF fdt fv] in H'. destruct (extract_max_degree_and_check_shape ([N] ++ [S0; D; F0])) as [L1|]; [|specialize (H' t0); cbn [bind] in H'; discriminate].
    destruct (extract_max_degree_and_check_shape ([N] ++ [S1; D1; F1])) as [L2|]; [|specialize (H' t0); cbn [bind] in H'; discriminate]. cbn [bind] in H'. cbv zeta in H'.
    destruct (L1 + L2 <? _)%Z; [specialize (H' t0); cbn [bind] in H'; discriminate|]. destruct (negb (F0 =? F1)%nat); [specialize (H' t0); cbn [bind] in H'; discriminate|].
    destruct (cgf L1 L2 _) as [cg|]; [|specialize (H' t0); cbn [bind] in H'; discriminate]. rewrite broadcast_same in H'. cbn [bind] in H'.
    destruct (negb (_ && _ && _)).
    + refine (family_result N _ _ F0 d _ y H' _). intros n r c f. cbv beta. rewrite !bidx_same. kk; first [apply Hx|apply Hx'].
    + refine (family_result N _ _ F0 d _ y H' _). intros n r c f. cbv beta. rewrite !bidx_same. kk; first [apply Hx|apply Hx'].
  - unfold fused_tensor in H'. unfold shape_of, with_features in H'; cbn [fB fS fD fF fdt fv] in H'. destruct (extract_max_degree_and_check_shape ([N] ++ [S0; D; F0])) as [L1|]; [|specialize (H' t0); cbn [bind] in H'; discriminate].
    destruct (extract_max_degree_and_check_shape ([N] ++ [S1; D1; F1])) as [L2|]; [|specialize (H' t0); cbn [bind] in H'; discriminate]. cbn [bind] in H'. cbv zeta in H'.
    destruct (L1 + L2 <? _)%Z; [specialize (H' t0); cbn [bind] in H'; discriminate|]. destruct (negb (F0 =? F1)%nat); [specialize (H' t0); cbn [bind] in H'; discriminate|].
    destruct (cgf _ _ _) as [cg|]; [|specialize (H' t0); cbn [bind] in H'; discriminate]. rewrite broadcast_same in H'. cbn [bind] in H'.
    destruct (output_pseudotensors _ _ _ _ _ _).
    + refine (family_result N _ _ F0 d _ y H' _). intros n r c f. cbv beta. rewrite !bidx_same. kk; first [apply Hx|apply Hx'].
    + refine (family_result N _ _ F0 d _ y H' _). intros n r c f. cbv beta. rewrite !bidx_same. kk; first [apply Hx|apply Hx'].
Qed.

Lemma tensor_dense_regular : forall N features md incl ub Pd Pt x y, regular N x -> (forall t, tensor_dense cgf features md incl ub Pd Pt (x t) = Ok (y t)) -> regular N y.
Proof using C t0.
  intros N features md incl ub Pd Pt x y Hx H. unfold tensor_dense in H. pose proof Hx as [S0 [D [F0 [d [Hf _]]]]].
  assert (H' : forall t, bind (dense (2 * match features with None => F0 | Some n => n end) ub Pd (x t)) (fun u => any_tensor cgf md incl Pt (split_half u match features with None => F0 | Some n => n end 0) (split_half u match features with None => F0 | Some n => n end match features with None => F0 | Some n => n end)) = Ok (y t)).
  { intros t. rewrite <- (H t). destruct (Hf t) as [_ [_ [_ [-> _]]]]. reflexivity. }
  clear H. apply bind_family in H' as [u [Hu H]]. destruct (dense_regular _ _ _ _ _ _ Hx Hu) as [S1 [D1 [F1 [d1 [Uf Uk]]]]].
  assert (HH : forall F off, regular N (fun t => split_half (u t) F off)).
  { intros F off. exists S1, D1, F, d1. split; [intros t; destruct (Uf t) as [? [? [? [? ?]]]]; cbn; auto|]. intros n s c f. exact (Uk n s c (off + f)%nat). }
  exact (tensor_regular N md incl Pt _ _ y (HH _ _) (HH _ _) H).
Qed.

Section Graphs.
Variables (dst src : list nat) (N : nat).
Hypotheses (len : length src = length dst) (dst_in : Forall (fun n => (n < N)%nat) dst).
Let g := sparse_graph dst src.
Let Q := length dst.

Lemma gather_value : forall (idx : list nat) x s c f, (forall t, fB (x t) = [N]) -> (forall n, K (fun t => fv (x t) [n] s c f)) ->
  forall n, K (fun t => nth n (gather_sparse 0 (node_values (x t) [] s c f) (map Z.of_nat idx)) 0).
Proof using C.
  intros idx x s c f HB HK n. apply (k_eq (fun t => nth n (map (fun m => take 0 (node_values (x t) [] s c f) (Z.of_nat m)) idx) 0)); [intros t; unfold gather_sparse; now rewrite map_map|].
  apply k_list_nth. intros m. apply (k_eq (fun t => nth (jax_index N (Z.of_nat m)) (map (fun k => fv (x t) [k] s c f) (seq 0 N)) 0)).
  - intros t. unfold take, node_values. rewrite map_length, seq_length, HB. reflexivity.
  - now apply k_list_nth.
Qed.

Lemma gather_src_regular : forall x y, regular N x -> (forall t, gather_src_feat (x t) g = Ok (y t)) -> regular Q y.
Proof using C len.
  intros x y [S0 [D [F0 [d [Hf Hk]]]]] H. unfold gather_src_feat in H. cbn in H.
  eapply (family_result Q S0 D F0 d (fun t i s c f => nth (last1 i) (gather_sparse 0 (node_values (x t) (but_last i) s c f) (map Z.of_nat src)) 0)).
  - intros t. rewrite <- (H t). destruct (Hf t) as [-> [-> [-> [-> ->]]]]. unfold Q. rewrite <- len. reflexivity.
  - intros n s c f. apply gather_value; [intros t; apply (Hf t)|]. intros m. apply Hk.
Qed.
Lemma gather_dst_regular : forall x y, regular N x -> (forall t, gather_dst_feat (x t) g = Ok (y t)) -> regular Q y.
Proof using C.
  intros x y [S0 [D [F0 [d [Hf Hk]]]]] H. unfold gather_dst_feat in H. cbn in H.
  eapply (family_result Q S0 D F0 d (fun t i s c f => nth (last1 i) (gather_sparse 0 (node_values (x t) (but_last i) s c f) (map Z.of_nat dst)) 0)).
  - intros t. rewrite <- (H t). destruct (Hf t) as [-> [-> [-> [-> ->]]]]. reflexivity.
  - intros n s c f. apply gather_value; [intros t; apply (Hf t)|]. intros m. apply Hk.
Qed.

Lemma k_segment : forall s (l : list Z) (h : T -> nat -> R), (forall e, K (fun t => h t e)) -> forall n a, K (fun t => Indexed_Spec.list_sum (values_at s (combine l (map (h t) (seq a n))))).
Proof using C.
  intros s l h H. induction l as [|z l IH]; intros n a; [exact (kc_const _ _ C 0)|]. destruct n as [|n]; [exact (kc_const _ _ C 0)|]. unfold values_at in *. cbn [seq map combine filter fst].
  destruct (z =? s)%Z; [|apply IH]. cbn [map snd Indexed_Spec.list_sum]. apply (kc_plus _ _ C); [apply H|apply IH].
Qed.

Lemma sum_regular : forall a x y, regular Q x -> (forall t, indexed_sum_feat (x t) (with_defaults g N a) = Ok (y t)) -> regular N y.
Proof using C.
  intros a x y [S0 [D [F0 [d [Hf Hk]]]]] H. unfold indexed_sum_feat in H. cbn in H.
  eapply (family_result N S0 D F0 d (fun t i s c f => nth (last1 i) (reduce_sparse 0 0 RSum N (map Z.of_nat dst) (sparse_edge_values Q (fun e => fv (x t) e s c f) (but_last i))) 0)).
  - intros t. rewrite <- (H t). destruct (Hf t) as [-> [-> [-> [-> ->]]]]. unfold but_last. cbn [removelast app]. fold Q. rewrite list_nat_eqb_refl. reflexivity.
  - intros n s c f. unfold reduce_sparse. apply k_list_nth. intros k.
    apply (k_eq (fun t => Indexed_Spec.list_sum (values_at (Z.of_nat k) (combine (map Z.of_nat dst) (map (fun e => fv (x t) [e] s c f) (seq 0 Q)))))).
    + intros t. rewrite reduce_segment_spec. cbn [op_of init_of]. now rewrite list_extreme_sum.
    + apply k_segment. intros e. apply Hk.
Qed.

Definition regular_opt (M : nat) (b : option (T -> feat)) : Prop := match b with Some x => regular M x | None => True end.
Definition value_of (b : option (T -> feat)) (t : T) : option feat := option_map (fun x => x t) b.

Lemma conv_regular : forall md incl ub P a x b y, regular Q x -> regular_opt Q b ->
  (forall t, conv cgf md incl ub P (x t) (value_of b t) (with_defaults g N a) = Ok (y t)) -> regular N y.
Proof using C t0.
  intros md incl ub P a x b y Hx Hb H. unfold conv in H. apply bind_family in H as [z [Hz H]]. refine (sum_regular a z y _ H).
  destruct b as [bs|]; cbn [value_of option_map regular_opt] in *.
  - pose proof Hx as [S0 [D [F0 [d [Hf _]]]]]. pose proof Hb as [S1 [D1 [F1 [d1 [Hf1 _]]]]].
    assert (H2 : forall t, bind (dense F0 ub (c_filter P) (bs t)) (fun filters => any_tensor cgf md incl (c_tensor P) filters (x t)) = Ok (z t)).
    { intros t. rewrite <- (Hz t). destruct (Hf t) as [-> [_ [_ [-> _]]]]. destruct (Hf1 t) as [-> _]. rewrite list_nat_eqb_refl. reflexivity. }
    apply bind_family in H2 as [fl [Hfl H2]]. exact (tensor_regular Q md incl (c_tensor P) fl x z (dense_regular _ _ _ _ _ _ Hb Hfl) Hx H2).
  - assert (E : forall t, z t = x t) by (intros t; specialize (Hz t); congruence). destruct Hx as [S0 [D [F0 [d [Hf Hk]]]]]. exists S0, D, F0, d. split; [intros t; rewrite E; apply Hf|].
    intros n s c f. apply (k_eq (fun t => fv (x t) [n] s c f)); [intros t; now rewrite E|apply Hk].
Qed.

Lemma pass_regular : forall md incl ub P x b y, regular N x -> regular_opt Q b ->
  (forall t, message_pass cgf md incl ub P (x t) (value_of b t) None g = Ok (y t)) -> regular N y.
Proof using C t0 len.
  intros md incl ub P x b y Hx Hb H. unfold message_pass in H. apply bind_family in H as [z [Hz H]]. cbn [bind] in H.
  pose proof Hx as [S0 [D [F0 [d [Hf _]]]]]. refine (conv_regular md incl ub P N z b y (gather_src_regular _ _ Hx Hz) Hb _). intros t. rewrite <- (H t). destruct (Hf t) as [-> _]. reflexivity.
Qed.

(** Attention: the class is closed under exp and under the inverse of positive functions. *)
Hypotheses (k_exp : closed_under K exp) (k_inv : forall u, K u -> (forall t, G t -> 0 < u t) -> K (fun t => / u t)).
Variable cut : option (T -> list nat -> R).
Definition cut_of (t : T) : option (list nat -> R) := option_map (fun c => c t) cut.
Hypotheses (k_cut : match cut with Some c => forall e, K (fun t => c t [e]) | None => True end)
  (cut_ok : forall t, G t -> (forall e, 0 <= cutoff_at (cut_of t) [e]) /\ forall e, (e < Q)%nat -> exists e', (e' < Q)%nat /\ nth e' dst 0%nat = nth e dst 0%nat /\ 0 < cutoff_at (cut_of t) [e']).

Lemma exp_weights_map : forall (A : Type) (v w : A -> R) l, exp_weights (map v l) (map w l) = map (fun k => exp (v k) * w k) l.
Proof using. intros A v w l. induction l as [|a l IH]; [reflexivity|]. unfold exp_weights in *. cbn [map combine fst snd]. now rewrite IH. Qed.

Lemma softmax_regular : forall lo hi (v : T -> nat -> R), (forall e, K (fun t => v t e)) ->
  forall e, K (fun t => nth e (softmax_sparse lo hi N (map Z.of_nat dst) (map (v t) (seq 0 Q)) (option_map (fun c => sparse_edge_values Q c []) (cut_of t))) 0).
Proof using C k_exp k_inv k_cut cut_ok dst_in len.
  intros lo hi v Hv e. pose (w := fun t k => cutoff_at (cut_of t) [k]).
  assert (Hw : forall k, K (fun t => w t k)).
  { intros k. unfold w, cut_of. destruct cut as [c|]; cbn [option_map cutoff_at]; [apply k_cut|exact (kc_const _ _ C 1)]. }
  assert (EW : forall t, weight_list Q (option_map (fun c => sparse_edge_values Q c []) (cut_of t)) = map (w t) (seq 0 Q)).
  { intros t. unfold weight_list, w, cut_of. destruct cut as [c|]; cbn [option_map cutoff_at]; [reflexivity|]. clear. generalize 0%nat. induction Q as [|q IH]; intros a; [reflexivity|]. cbn. f_equal. apply IH. }
  assert (LV : forall t, length (map (v t) (seq 0 Q)) = Q) by (intros t; now rewrite map_length, seq_length).
  assert (LD : length (map Z.of_nat dst) = Q) by (now rewrite map_length).
  assert (NZ : forall k, nth k (map Z.of_nat dst) 0%Z = Z.of_nat (nth k dst 0%nat)) by (intros k; exact (map_nth Z.of_nat dst 0%nat k)).
  destruct (Nat.lt_ge_cases e Q) as [He|He].
  - assert (POS : forall t, G t -> 0 < Indexed_Spec.list_sum (values_at (Z.of_nat (nth e dst 0%nat)) (combine (map Z.of_nat dst) (map (fun k => exp (v t k) * w t k) (seq 0 Q))))).
    { intros t Ht. destruct (cut_ok t Ht) as [P1 P2]. destruct (P2 e He) as [e' [He' [En Ew]]].
      pose proof (segment_mass_pos (map Z.of_nat dst) (map (v t) (seq 0 Q)) (option_map (fun c => sparse_edge_values Q c []) (cut_of t))) as F.
      rewrite LV, EW, exp_weights_map in F. apply (F LD) with (e0 := e').
      - now rewrite map_length, seq_length.
      - intros x Hx. apply in_map_iff in Hx as [k [<- _]]. apply P1.
      - now rewrite LD.
      - rewrite NZ. congruence.
      - rewrite nth_map_seq by exact He'. exact Ew. }
    apply (kc_ext _ _ C (fun t => (exp (v t e) * w t e) * / Indexed_Spec.list_sum (values_at (Z.of_nat (nth e dst 0%nat)) (combine (map Z.of_nat dst) (map (fun k => exp (v t k) * w t k) (seq 0 Q)))))).
    + intros t Ht. pose proof (POS t Ht) as HP. rewrite softmax_sparse_formula; rewrite ?LV, ?EW, ?exp_weights_map.
      * rewrite !nth_map_seq by exact He. rewrite NZ. reflexivity.
      * exact LD.
      * now rewrite map_length, seq_length.
      * now rewrite LD.
      * rewrite NZ. rewrite Forall_forall in dst_in. pose proof (dst_in (nth e dst 0%nat) (nth_In _ _ He)). lia.
      * rewrite NZ. lra.
    + apply (kc_mult _ _ C); [apply (kc_mult _ _ C); [apply k_exp, Hv|apply Hw]|]. apply k_inv; [|exact POS].
      apply k_segment. intros k. apply (kc_mult _ _ C); [apply k_exp, Hv|apply Hw].
  - apply (k_eq (fun _ => 0)); [|exact (kc_const _ _ C 0)]. intros t. symmetry. apply nth_overflow. rewrite softmax_sparse_length; rewrite ?LV, ?LD, ?EW; try reflexivity; [exact He|now rewrite map_length, seq_length].
Qed.

Lemma attention_regular : forall lo hi o P xq xkv b y, regular N xq -> regular N xkv -> regular_opt Q b ->
  (forall t, multi_head_attention cgf lo hi o P (xq t) (xkv t) (value_of b t) (cut_of t) g = Ok (y t)) -> regular N y.
Proof using C t0 len dst_in k_exp k_inv k_cut cut_ok.
  intros lo hi o P xq xkv b y Hq Hk Hb H. pose proof Hq as [Sq [Dq [Fq [dq [QF _]]]]]. pose proof Hk as [Sk [Dk [Fk [dk0 [KF _]]]]].
  pose (qkv := match o_qkv o with None => Fq | Some n => n end).
  assert (H1 : forall t, bind (extract_max_degree_and_check_shape [N; Sq; Dq; Fq]) (fun Lq => bind (extract_max_degree_and_check_shape [N; Sk; Dk; Fk]) (fun Lk =>
    bind (change_max_degree_or_type (xq t) (Some (Z.min Lq Lk)) (Some ((Sq =? 2)%nat && (Sk =? 2)%nat))) (fun qi =>
    bind (change_max_degree_or_type (xkv t) (Some (Z.min Lq Lk)) (Some ((Sq =? 2)%nat && (Sk =? 2)%nat))) (fun ki =>
    bind (dense qkv (o_query_bias o) (a_query P) qi) (fun query =>
    bind (dense qkv (o_key_bias o) (a_key P) ki) (fun key =>
    bind (dense qkv (o_value_bias o) (a_value P) (xkv t)) (fun value =>
    bind (gather_dst_feat query g) (fun gq =>
    bind (gather_src_feat key g) (fun gk =>
    let rel := match value_of b t with
               | Some bs => if o_rel_qk o then Some (rel_pos_encoding (o_basis_bias o) (a_rel_kernel P) (a_rel_bias P) bs (Z.min Lq Lk) qkv) else None
               | None => None end in
    let dot := fun h i => attention_dot (o_heads o) gq gk rel i h in
    let g' := with_defaults g N N in
    bind (gather_src_feat value g) (fun gv =>
    bind (attention_weight lo hi g' (cut_of t) (dot 0%nat) []) (fun _ =>
    bind (conv cgf (o_max_degree o) (o_include o) (o_basis_bias o) (a_conv P) (mkFeat (fB gv) (fS gv) (fD gv) (fF gv) (fdt gv) (fun i s d f =>
          get_ok (attention_weight lo hi g' (cut_of t) (dot (f / (qkv / o_heads o))%nat) i) * fv gv i s d f))
            (if o_rel_v o then value_of b t else None) g') (fun att =>
    dense match o_out o with None => Fq | Some n => n end (o_out_bias o) (a_out P) att)))))))))))) = Ok (y t)).
  { intros t. rewrite <- (H t). specialize (H t). unfold multi_head_attention in *. unfold shape_of in *.
    destruct (QF t) as [QB [QS [QD [QFF _]]]]. destruct (KF t) as [KB [KS [KD [KFF _]]]]. rewrite QB, QS, QD, QFF, KB, KS, KD, KFF in *.
    cbv zeta in *. destruct (negb (list_nat_eqb _ _)); [discriminate|]. destruct ((o_rel_qk o || o_rel_v o) && _); [discriminate|]. destruct (o_heads o =? 0)%nat; [discriminate|]. destruct (negb (_ mod _ =? 0)%nat); [discriminate|]. reflexivity. }
  clear H. destruct (extract_max_degree_and_check_shape [N; Sq; Dq; Fq]) as [Lq|]; [|specialize (H1 t0); discriminate]. cbn [bind] in H1.
  destruct (extract_max_degree_and_check_shape [N; Sk; Dk; Fk]) as [Lk|]; [|specialize (H1 t0); discriminate]. cbn [bind] in H1.
  apply bind_family in H1 as [qi [Eqi H1]]. pose proof (change_regular N _ _ _ _ Hq Eqi) as Rqi.
  apply bind_family in H1 as [ki [Eki H1]]. pose proof (change_regular N _ _ _ _ Hk Eki) as Rki.
  apply bind_family in H1 as [q [Eq H1]]. pose proof (dense_regular N _ _ _ _ _ Rqi Eq) as Rq.
  apply bind_family in H1 as [k [Ek H1]]. pose proof (dense_regular N _ _ _ _ _ Rki Ek) as Rk.
  apply bind_family in H1 as [v [Ev H1]]. pose proof (dense_regular N _ _ _ _ _ Hk Ev) as Rv.
  apply bind_family in H1 as [gq [Egq H1]]. pose proof (gather_dst_regular _ _ Rq Egq) as Rgq.
  apply bind_family in H1 as [gk [Egk H1]]. pose proof (gather_src_regular _ _ Rk Egk) as Rgk.
  cbv zeta in H1. apply bind_family in H1 as [gv [Egv H1]]. pose proof (gather_src_regular _ _ Rv Egv) as Rgv.
  apply bind_family in H1 as [w0 [_ H1]]. apply bind_family in H1 as [att [Ec H1]].
  refine (dense_regular N _ _ _ att y _ H1).
  set (rel := fun t => match value_of b t with Some bs => if o_rel_qk o then Some (rel_pos_encoding (o_basis_bias o) (a_rel_kernel P) (a_rel_bias P) bs (Z.min Lq Lk) qkv) else None | None => None end) in *.
  assert (DOT : forall h e, K (fun t => attention_dot (o_heads o) (gq t) (gk t) (rel t) [e] h)).
  { intros h e. destruct Rgq as [S1 [D1 [F1 [d1 [Gf1 Gk1]]]]]. destruct Rgk as [S2 [D2 [F2 [d2 [_ Gk2]]]]].
    apply (k_eq (fun t => rsum S1 (fun p => rsum D1 (fun d => rsum (F1 / o_heads o) (fun f =>
      fv (gq t) [e] p d (f * o_heads o + h)%nat * / sqrt (INR (S1 * D1 * (F1 / o_heads o))) * fv (gk t) [e] p d (f * o_heads o + h)%nat * match rel t with Some r => r [e] p d (f * o_heads o + h)%nat | None => 1 end))))).
    - intros t. unfold attention_dot. destruct (Gf1 t) as [_ [-> [-> [-> _]]]]. reflexivity.
    - apply k_rsum. intros p _. apply k_rsum. intros d _. apply k_rsum. intros f _. apply (kc_mult _ _ C).
      + apply (kc_mult _ _ C); [|apply Gk2]. apply (kc_mult _ _ C); [apply Gk1|exact (kc_const _ _ C _)].
      + unfold rel. destruct b as [bs|]; cbn [value_of option_map]; [|exact (kc_const _ _ C 1)]. destruct (o_rel_qk o); [|exact (kc_const _ _ C 1)].
        destruct Hb as [S3 [D3 [F3 [d3 [Bf Bk]]]]].
        apply (k_eq (fun t => rsum F3 (fun a => fv (bs t) [e] 0%nat 0%nat a * a_rel_kernel P a ((p * Z.to_nat (Z.min Lq Lk + 1) + dup (Z.min Lq Lk) d) * qkv + (f * o_heads o + h))%nat) + (if o_basis_bias o then a_rel_bias P ((p * Z.to_nat (Z.min Lq Lk + 1) + dup (Z.min Lq Lk) d) * qkv + (f * o_heads o + h))%nat else 0))).
        * intros t. unfold rel_pos_encoding. destruct (Bf t) as [_ [_ [_ [-> _]]]]. reflexivity.
        * apply (kc_plus _ _ C); [|exact (kc_const _ _ C _)]. apply k_rsum. intros a _. apply (kc_mult _ _ C); [apply Bk|exact (kc_const _ _ C _)]. }
  destruct Rgv as [S4 [D4 [F4 [d4 [Vf Vk]]]]].
  refine (conv_regular (o_max_degree o) (o_include o) (o_basis_bias o) (a_conv P) N (fun t => mkFeat (fB (gv t)) (fS (gv t)) (fD (gv t)) (fF (gv t)) (fdt (gv t)) (fun i s d f =>
      get_ok (attention_weight lo hi (with_defaults g N N) (cut_of t) (fun i => attention_dot (o_heads o) (gq t) (gk t) (rel t) i (f / (qkv / o_heads o))) i) * fv (gv t) i s d f)) (if o_rel_v o then b else None) att _ _ _).
  - exists S4, D4, F4, d4. split; [intros t; cbn; exact (Vf t)|]. intros n s c f. cbn [fv]. apply (kc_mult _ _ C); [|apply Vk].
    exact (softmax_regular lo hi (fun t e => attention_dot (o_heads o) (gq t) (gk t) (rel t) [e] (f / (qkv / o_heads o))) (DOT _) n).
  - destruct (o_rel_v o); [exact Hb|exact I].
  - intros t. rewrite <- (Ec t). destruct (o_rel_v o); reflexivity.
Qed.
End Graphs.

Lemma regular_ext : forall N (x x' : T -> feat), (forall t, x t = x' t) -> regular N x -> regular N x'.
Proof using C.
  intros N x x' E [S0 [D [F [d [Hf Hk]]]]]. exists S0, D, F, d. split; [intros t; rewrite <- E; apply Hf|]. intros n s c f. apply (k_eq (fun t => fv (x t) [n] s c f)); [intros t; now rewrite E|apply Hk].
Qed.

Lemma gate_regular : forall N act gate x y, gate_of act gate -> closed_under K gate -> regular N x -> (forall t, act (x t) = Ok (y t)) -> regular N y.
Proof using C.
  intros N act gate x y Ha Hg [S0 [D [F [d [Hf Hk]]]]] H. exists S0, D, F, d. split.
  - intros t. destruct (Ha _ _ (H t)) as [-> [-> [-> [-> [-> _]]]]]. apply Hf.
  - intros n s c f. apply (k_eq (fun t => gate (fv (x t) [n] 0%nat 0%nat f) * fv (x t) [n] s c f)).
    + intros t. destruct (Ha _ _ (H t)) as [_ [_ [_ [_ [_ E]]]]]. now rewrite E.
    + apply (kc_mult _ _ C); [apply Hg, Hk|apply Hk].
Qed.

(** Lists of families. *)
Definition at_all (fs : list (T -> feat)) (t : T) : list feat := map (fun f => f t) fs.

Lemma select_regular : forall N fs i x, Forall (regular N) fs -> (forall t, select (at_all fs t) i = Ok (x t)) -> regular N x.
Proof using C t0.
  intros N fs i x V H. unfold select, at_all in H. destruct (nth_error fs i) as [f|] eqn:E.
  - apply (regular_ext N f); [intros t; specialize (H t); rewrite nth_error_map, E in H; cbn in H; congruence|]. rewrite Forall_forall in V. apply V, (nth_error_In _ _ E).
  - specialize (H t0). rewrite nth_error_map, E in H. discriminate.
Qed.
Lemma select_all_regular : forall N fs is xs, Forall (regular N) fs -> (forall t, select_all (at_all fs t) is = Ok (xs t)) -> exists gs, Forall (regular N) gs /\ forall t, xs t = at_all gs t.
Proof using C t0.
  intros N fs is xs V. revert xs. induction is as [|i is IH]; intros xs H; cbn [select_all] in H.
  - exists []. split; [constructor|]. intros t. specialize (H t). cbn. congruence.
  - apply bind_family in H as [x [Hx H]]. 
    assert (H1 : forall t, bind (select_all (at_all fs t) is) (fun l => Ok (x t :: l)) = Ok (xs t)) by (intros t; rewrite <- (H t); unfold rmap; destruct (select_all (at_all fs t) is); reflexivity).
    apply bind_family in H1 as [l [Hl H1]]. destruct (IH l Hl) as [gs [Vg Eg]]. exists (x :: gs). split; [constructor; [exact (select_regular N fs i x V Hx)|exact Vg]|]. intros t. cbn [at_all map]. specialize (H1 t). rewrite Eg in H1. unfold at_all in H1. congruence.
Qed.

Lemma add_scan_same : forall N B F d fs, Forall (regular N) fs -> forall t L ps, add_scan B F d (at_all fs t) L ps = add_scan B F d (at_all fs t0) L ps.
Proof using.
  intros N B F d fs V t. induction V as [|f fs [S0 [D [F0 [d0 [Hf _]]]]] _ IH]; intros L ps; [reflexivity|]. cbn [at_all map add_scan]. unfold shape_of.
  destruct (Hf t) as [-> [-> [-> [-> ->]]]]. destruct (Hf t0) as [-> [-> [-> [-> ->]]]].
  destruct (negb (list_nat_eqb _ _)); [reflexivity|]. destruct (negb (F0 =? F)%nat); [reflexivity|]. destruct (negb (d0 =? d)%nat); [reflexivity|].
  destruct (extract_max_degree_and_check_shape _); [|reflexivity]. cbn [bind]. apply IH.
Qed.

Lemma add_acc_regular : forall N L ps fs, Forall (regular N) fs -> forall x y, regular N x -> (forall t, add_acc L ps (x t) (at_all fs t) = Ok (y t)) -> regular N y.
Proof using C t0.
  intros N L ps fs V. induction V as [|f fs Hf _ IH]; intros x y Hx H; cbn [at_all map add_acc] in H.
  - apply (regular_ext N x); [intros t; specialize (H t); congruence|exact Hx].
  - apply bind_family in H as [z [Hz H]]. destruct (change_regular N _ _ _ _ Hf Hz) as [S1 [D1 [F1 [d1 [_ Zk]]]]].
    refine (IH (fun t => mkFeat (fB (x t)) (fS (x t)) (fD (x t)) (fF (x t)) (fdt (x t)) (fun i s c f => fv (x t) i s c f + fv (z t) i s c f)) y _ H).
    destruct Hx as [S0 [D [F0 [d [Xf Xk]]]]]. exists S0, D, F0, d. split; [intros t; cbn; apply Xf|]. intros n s c f0. cbn [fv]. apply (kc_plus _ _ C); [apply Xk|apply Zk].
Qed.

Lemma add_regular : forall N fs y, Forall (regular N) fs -> (forall t, add (at_all fs t) = Ok (y t)) -> regular N y.
Proof using C t0.
  intros N [|f fs] y V H; [specialize (H t0); discriminate|]. pose proof (Forall_inv V) as [S0 [D [F0 [d [Hf _]]]]].
  destruct (add_scan [N] F0 d (at_all (f :: fs) t0) 0 false) as [[L ps]|] eqn:E.
  - apply (add_acc_regular N L ps (f :: fs) V (fun t => mkFeat [N] (if ps then 2 else 1) (Z.to_nat ((L + 1) * (L + 1))) F0 d (fun _ _ _ _ => 0)) y).
    + exists (if ps then 2 else 1)%nat, (Z.to_nat ((L + 1) * (L + 1))), F0, d. split; [intros t; cbn; auto|]. intros. exact (kc_const _ _ C 0).
    + intros t. rewrite <- (H t). unfold add. change (at_all (f :: fs) t) with (f t :: at_all fs t). cbn iota. destruct (Hf t) as [-> [_ [_ [-> ->]]]]. change (f t :: at_all fs t) with (at_all (f :: fs) t). rewrite (add_scan_same N [N] F0 d (f :: fs) V t), E. reflexivity.
  - specialize (H t0). unfold add in H. change (at_all (f :: fs) t0) with (f t0 :: at_all fs t0) in H, E. cbn iota in H. destruct (Hf t0) as [EB [_ [_ [EF Ed]]]]. rewrite EB, EF, Ed, E in H. discriminate.
Qed.

Section Runs.
Variables (dst src : list nat) (N : nat) (lo hi : R) (b : option (T -> feat)) (cut : option (T -> list nat -> R)).
Hypotheses (len : length src = length dst) (dst_in : Forall (fun n => (n < N)%nat) dst) (Hb : regular_opt (length dst) b).
Let g := sparse_graph dst src.

(** Activations are products of the features with a function of the scalars under which the class is closed; attention
    requires more. *)
Definition attention_fine : Prop :=
  closed_under K exp /\ (forall u, K u -> (forall t, G t -> 0 < u t) -> K (fun t => / u t))
  /\ match cut with Some c => forall e, K (fun t => c t [e]) | None => True end
  /\ forall t, G t -> (forall e, 0 <= cutoff_at (cut_of cut t) [e]) /\ forall e, (e < length dst)%nat -> exists e', (e' < length dst)%nat /\ nth e' dst 0%nat = nth e dst 0%nat /\ 0 < cutoff_at (cut_of cut t) [e'].
Definition fine_call (c : call) : Prop :=
  match c with
  | UseActivation _ act => exists gate, gate_of act gate /\ closed_under K gate
  | UseAttention _ _ _ _ => attention_fine
  | _ => True
  end.

Lemma perform_regular : forall fs c y, fine_call c -> Forall (regular N) fs -> (forall t, perform cgf lo hi (value_of b t) (cut_of cut t) g (at_all fs t) c = Ok (y t)) -> regular N y.
Proof using C t0 len dst_in Hb.
  intros fs c y Hc V H. destruct c; cbn [perform fine_call] in *; apply bind_family in H as [x [Hx H]].
  - exact (dense_regular N _ _ _ x y (select_regular N fs _ x V Hx) H).
  - apply bind_family in H as [x2 [Hx2 H]]. exact (tensor_regular N _ _ _ x x2 y (select_regular N fs _ x V Hx) (select_regular N fs _ x2 V Hx2) H).
  - exact (tensor_dense_regular N _ _ _ _ _ _ x y (select_regular N fs _ x V Hx) H).
  - exact (pass_regular dst src N len _ _ _ _ x b y (select_regular N fs _ x V Hx) Hb H).
  - apply bind_family in H as [x2 [Hx2 H]]. destruct Hc as [A1 [A2 [A3 A4]]].
    exact (attention_regular dst src N len dst_in A1 A2 cut A3 A4 lo hi _ _ x x2 b y (select_regular N fs _ x V Hx) (select_regular N fs _ x2 V Hx2) Hb H).
  - destruct Hc as [gate [Ha Hg]]. exact (gate_regular N act gate x y Ha Hg (select_regular N fs _ x V Hx) H).
  - exact (change_regular N _ _ x y (select_regular N fs _ x V Hx) H).
  - destruct (select_all_regular N fs _ x V Hx) as [gs [Vg Eg]]. apply (add_regular N gs y Vg). intros t. rewrite <- Eg. apply H.
Qed.

Lemma run_regular : forall cs fs ys, Forall fine_call cs -> Forall (regular N) fs -> (forall t, Network_Spec.run cgf lo hi (value_of b t) (cut_of cut t) g (at_all fs t) cs = Ok (ys t)) ->
  exists gs, Forall (regular N) gs /\ forall t, ys t = at_all gs t.
Proof using C t0 len dst_in Hb.
  induction cs as [|c cs IH]; intros fs ys Hc V H; cbn [Network_Spec.run] in H.
  - exists fs. split; [exact V|]. intros t. specialize (H t). congruence.
  - apply bind_family in H as [y [Hy H]]. inversion Hc; subst. apply (IH (fs ++ [y])); [assumption| |].
    + apply Forall_app. split; [exact V|]. constructor; [|constructor]. exact (perform_regular fs c y H2 V Hy).
    + intros t. rewrite <- (H t). unfold at_all. rewrite map_app. reflexivity.
Qed.
End Runs.
End Tensors.
End Classes.
