(** C74: pairs of atoms beyond the cutoff have no influence on predictions. *)
Require Import List Reals ZArith Bool Lia Lra Permutation.
Require Import ZifyNat.
Require Import Verif.Base Verif.RSum Verif.Common_Proofs Verif.Features_Model Verif.Features_Spec Verif.Features_Proofs Verif.Modules_Model Verif.Modules_Spec Verif.Modules_Graph_Spec Verif.Modules_Relabel_Proofs
  Verif.Modules_Graph_Props Verif.Rotations_Model Verif.Rotations_Spec Verif.Rotations_Proofs Verif.LUT_Model Verif.LUT_Spec Verif.Irreps_Model Verif.Irreps_Spec Verif.Irreps_Proofs Verif.Irreps_Laws_Proofs Verif.Irreps_Props
  Verif.Wrappers_Model Verif.Wrappers_Spec Verif.Wrappers_Proofs Verif.Wrappers_Props Verif.Embed_Model Verif.Embed_Spec Verif.Embed_Props
  Verif.Equivariance_Spec Verif.Equivariance_Props Verif.Structure_Props Verif.Network_Spec Verif.Network_Props Verif.Shapes_Proofs Verif.Locality_Spec Verif.Locality_Proofs Verif.Locality_Props Verif.Molecule_Spec Verif.Molecule_Props Verif.Accept_Props
  Verif.Symbolic_Model Verif.Clebsch_Model Verif.CGTable_Proofs Verif.Clebsch_Props Verif.Cutoff_Spec Verif.Cutoff_Proofs Verif.Radial_Model Verif.Radial_Props.
Import ListNotations.
Open Scope R_scope.

Lemma sounds_alike_node : forall att s s' k n n', sounds_alike att s s' k n n' -> node_alike s s' n n'.
Proof. intros att s s' [|k] n n' [H _]; exact H. Qed.
Lemma active_weaken : forall att s s' n n' (R R' : list nat * nat -> list nat * nat -> Prop), (forall e e', R e e' -> R' e e') -> matched_active att s s' n n' R -> matched_active att s s' n n' R'.
Proof. intros att s s' n n' R R' H [es [zs [es' [zs' [P [P' [F Z]]]]]]]. exists es, zs, es', zs'. split; [exact P|]. split; [exact P'|]. split; [exact (Forall2_weaken _ _ _ _ _ _ H F)|exact Z]. Qed.
Lemma sounds_alike_less : forall att s s' k n n', sounds_alike att s s' (S k) n n' -> sounds_alike att s s' k n n'.
Proof.
  induction k as [|k IH]; intros n n' [H M]; [split; [exact H|exact I]|]. split; [exact H|].
  apply (active_weaken _ _ _ _ _ _ _ (fun e e' (X : edge_alike s s' (fst e) (fst e') /\ sounds_alike att s s' (S k) (snd e) (snd e')) => conj (proj1 X) (IH _ _ (proj2 X))) M).
Qed.
Lemma sounds_alike_mono : forall att s s' j k n n', (j <= k)%nat -> sounds_alike att s s' k n n' -> sounds_alike att s s' j n n'.
Proof. intros att s s' j k n n' H. induction H; [auto|]. intros L. apply IHle. now apply sounds_alike_less. Qed.

Section Network.
Variables (cartesian : bool) (cgf : Z -> Z -> Z -> result (nat -> nat -> nat -> R)) (lo hi : R).
Hypothesis package : uses_package cartesian cgf.
Variable att : Prop.
Variables s s' : scene.
Hypothesis kind : same_kind s s'.
Hypothesis basis_ok : forall bs, s_basis s = Some bs -> has_scalars bs.
Hypothesis graph_ok : good_graph (s_graph s) (s_nodes s) (s_at s).
Hypothesis graph_ok' : good_graph (s_graph s') (s_nodes s') (s_at s').

(** After calls of depth j, nodes that look alike up to distance j have the same features. *)
Lemma call_sounds : forall B B' j xs xs' c y y', proper_call c -> no_basis_bias c -> ((exists i j o P, c = UseAttention i j o P) -> att) ->
  ((exists i j o P, c = UseAttention i j o P) -> good_cutoffs (s_graph s) (s_cutoff s) (s_nodes s) (s_at s) /\ good_cutoffs (s_graph s') (s_cutoff s') (s_nodes s') (s_at s')) ->
  Forall (nodes_of s B) xs -> Forall (nodes_of s' B') xs' ->
  (forall n n', sounds_alike att s s' j n n' -> Forall2 (fun x x' => alike x (s_at s ++ [n]) x' (s_at s' ++ [n'])) xs xs') ->
  perform cgf lo hi (s_basis s) (s_cutoff s) (s_graph s) xs c = Ok y -> perform cgf lo hi (s_basis s') (s_cutoff s') (s_graph s') xs' c = Ok y' ->
  forall n n', sounds_alike att s s' (call_depth c + j) n n' -> alike y (s_at s ++ [n]) y' (s_at s' ++ [n']).
Proof using package kind basis_ok graph_ok graph_ok'.
  intros B B' j xs xs' c y y' Hc NB AT C V V' HI H H' n n' L. pose proof (C67_checked _ _ package) as Hcg.
  assert (A : Forall2 (fun x x' => alike x (s_at s ++ [n]) x' (s_at s' ++ [n'])) xs xs').
  { apply HI. apply (sounds_alike_mono _ _ _ j (call_depth c + j)); [lia|exact L]. }
  pose proof (sounds_alike_node _ _ _ _ _ _ L) as [Hn [Hn' _]].
  assert (SEL : forall i x x', select xs i = Ok x -> select xs' i = Ok x' -> forall m m', sounds_alike att s s' j m m' -> alike x (s_at s ++ [m]) x' (s_at s' ++ [m'])).
  { intros i x x' E E' m m' Lm. exact (select_related _ _ _ _ _ _ (HI m m' Lm) E E'). }
  destruct c; cbn [perform proper_call call_depth Nat.add no_basis_bias] in *; apply bind_inv in H as [x [Ex H]]; apply bind_inv in H' as [x' [Ex' H']].
  - exact (dense_alike _ _ _ _ _ _ _ _ _ H H' (SEL _ _ _ Ex Ex' _ _ L)).
  - apply bind_inv in H as [x2 [Ex2 H]]. apply bind_inv in H' as [x2' [Ex2' H']].
    pose proof (select_in _ _ _ _ V Ex) as [Vx Bx]. pose proof (select_in _ _ _ _ V Ex2) as [Vx2 Bx2]. pose proof (select_in _ _ _ _ V' Ex') as [Vx' Bx']. pose proof (select_in _ _ _ _ V' Ex2') as [Vx2' Bx2'].
    refine (tensor_alike cgf Hcg _ _ _ _ _ _ _ _ _ _ _ Hc Vx Vx2 _ _ H H' (SEL _ _ _ Ex Ex' _ _ L) (SEL _ _ _ Ex2 Ex2' _ _ L)); congruence.
  - pose proof (select_in _ _ _ _ V Ex) as [Vx Bx]. exact (tensor_dense_alike cgf Hcg _ _ _ _ _ _ _ _ _ _ _ _ Hc Vx H H' (SEL _ _ _ Ex Ex' _ _ L)).
  - pose proof (select_in _ _ _ _ V Ex) as [Vx Bx]. pose proof (select_in _ _ _ _ V' Ex') as [Vx' Bx'].
    subst use_basis_bias. refine (pass_active cgf Hcg att s s' _ _ _ _ _ _ _ B B' n n' Hc kind basis_ok Vx Bx Bx' graph_ok graph_ok' H H' Hn Hn' _ _).
    + destruct (SEL _ _ _ Ex Ex' n n' (sounds_alike_less _ _ _ _ _ _ L)) as [? [? [? [? _]]]]. repeat split; assumption.
    + destruct L as [_ M]. refine (active_weaken _ _ _ _ _ _ _ _ M). intros e e' [X1 X2]. split; [exact X1|]. exact (SEL _ _ _ Ex Ex' _ _ X2).
  - apply bind_inv in H as [x2 [Ex2 H]]. apply bind_inv in H' as [x2' [Ex2' H']]. destruct C as [C1 C2]; [eauto|].
    pose proof (select_in _ _ _ _ V Ex) as [Vx Bx]. pose proof (select_in _ _ _ _ V Ex2) as [Vx2 Bx2]. pose proof (select_in _ _ _ _ V' Ex') as [Vx' Bx']. pose proof (select_in _ _ _ _ V' Ex2') as [Vx2' Bx2'].
    refine (attention_active cgf Hcg lo hi att s s' _ _ _ _ _ _ _ _ B B' n n' (AT ltac:(eauto)) Hc kind basis_ok Vx Vx2 Bx Bx2 Bx' Bx2' graph_ok graph_ok' C1 C2 H H' Hn Hn' _ _ _).
    + exact (SEL _ _ _ Ex Ex' n n' (sounds_alike_less _ _ _ _ _ _ L)).
    + destruct (SEL _ _ _ Ex2 Ex2' n n' (sounds_alike_less _ _ _ _ _ _ L)) as [? [? [? [? _]]]]. repeat split; assumption.
    + destruct L as [_ M]. refine (active_weaken _ _ _ _ _ _ _ _ M). intros e e' [X1 X2]. split; [exact X1|]. exact (SEL _ _ _ Ex2 Ex2' _ _ X2).
  - pose proof (select_in _ _ _ _ V Ex) as [Vx Bx]. destruct Hc as [erf [eps [alpha Ha]]]. exact (activation_alike _ _ _ _ _ _ _ _ _ _ Ha Vx H H' (SEL _ _ _ Ex Ex' _ _ L)).
  - pose proof (select_in _ _ _ _ V Ex) as [Vx Bx]. exact (change_alike _ _ _ _ _ _ _ _ Hc Vx H H' (SEL _ _ _ Ex Ex' _ _ L)).
  - exact (add_alike _ _ _ _ _ _ H H' (select_all_related _ _ _ _ _ _ A Ex Ex')).
Qed.

Lemma run_sounds : forall B B' cs j xs xs' ys ys', Forall proper_call cs -> Forall no_basis_bias cs -> (has_attention cs -> att) ->
  (has_attention cs -> good_cutoffs (s_graph s) (s_cutoff s) (s_nodes s) (s_at s) /\ good_cutoffs (s_graph s') (s_cutoff s') (s_nodes s') (s_at s')) ->
  Forall (nodes_of s B) xs -> Forall (nodes_of s' B') xs' ->
  (forall n n', sounds_alike att s s' j n n' -> Forall2 (fun x x' => alike x (s_at s ++ [n]) x' (s_at s' ++ [n'])) xs xs') ->
  run cgf lo hi (s_basis s) (s_cutoff s) (s_graph s) xs cs = Ok ys -> run cgf lo hi (s_basis s') (s_cutoff s') (s_graph s') xs' cs = Ok ys' ->
  forall n n', sounds_alike att s s' (depth cs + j) n n' -> Forall2 (fun y y' => alike y (s_at s ++ [n]) y' (s_at s' ++ [n'])) ys ys'.
Proof using package kind basis_ok graph_ok graph_ok'.
  intros B B'. induction cs as [|c cs IH]; intros j xs xs' ys ys' Hc NB AT C V V' HI H H' n n' L; cbn [run] in *.
  - injection H as <-. injection H' as <-. apply HI. exact L.
  - apply bind_inv in H as [y [Ey H]]. apply bind_inv in H' as [y' [Ey' H']]. inversion Hc as [|? ? Hc0 Hc1]; inversion NB as [|? ? NB0 NB1]; subst.
    assert (AT0 : (exists i j o P, c = UseAttention i j o P) -> att) by (intros [i [i2 [o [P E]]]]; apply AT; exists i, i2, o, P; left; exact E).
    assert (C0 : (exists i j o P, c = UseAttention i j o P) -> good_cutoffs (s_graph s) (s_cutoff s) (s_nodes s) (s_at s) /\ good_cutoffs (s_graph s') (s_cutoff s') (s_nodes s') (s_at s')).
    { intros [i [i2 [o [P E]]]]. apply C. exists i, i2, o, P. left. exact E. }
    apply (IH (call_depth c + j)%nat (xs ++ [y]) (xs' ++ [y'])); auto.
    + intros [i [i2 [o [P E]]]]. apply AT. exists i, i2, o, P. now right.
    + intros [i [i2 [o [P E]]]]. apply C. exists i, i2, o, P. now right.
    + apply Forall_app. split; [exact V|]. constructor; [|constructor]. refine (call_nodes cartesian cgf lo hi package s B xs c y graph_ok _ Hc0 V Ey). intros X. exact (proj1 (C0 X)).
    + apply Forall_app. split; [exact V'|]. constructor; [|constructor]. refine (call_nodes cartesian cgf lo hi package s' B' xs' c y' graph_ok' _ Hc0 V' Ey'). intros X. exact (proj2 (C0 X)).
    + intros m m' Lm. apply Forall2_app.
      * apply HI. apply (sounds_alike_mono _ _ _ j (call_depth c + j)); [lia|exact Lm].
      * constructor; [|constructor]. exact (call_sounds B B' j xs xs' c y y' Hc0 NB0 AT0 C0 V V' HI Ey Ey' m m' Lm).
    + replace (depth cs + (call_depth c + j))%nat with (depth (c :: cs) + j)%nat; [exact L|]. rewrite depth_cons. lia.
Qed.
End Network.

(** * C74 *)

(** Edges whose basis functions (and cutoffs, if there is attention) are zero make no difference, unless message passing adds
    a bias to the filters: nodes get the same features if everything up to k edges away is the same up to such edges. *)
Theorem C74_network : forall cartesian cgf lo hi s s' cs ys ys' k n n', uses_package cartesian cgf ->
  Forall proper_call cs -> Forall no_basis_bias cs -> node_arrays s -> node_arrays s' -> same_kind s s' ->
  good_graph (s_graph s) (s_nodes s) (s_at s) -> good_graph (s_graph s') (s_nodes s') (s_at s') ->
  (has_attention cs -> good_cutoffs (s_graph s) (s_cutoff s) (s_nodes s) (s_at s) /\ good_cutoffs (s_graph s') (s_cutoff s') (s_nodes s') (s_at s')) ->
  run cgf lo hi (s_basis s) (s_cutoff s) (s_graph s) (s_inputs s) cs = Ok ys ->
  run cgf lo hi (s_basis s') (s_cutoff s') (s_graph s') (s_inputs s') cs = Ok ys' ->
  (depth cs <= k)%nat -> sounds_alike (has_attention cs) s s' k n n' ->
  Forall2 (fun y y' => alike y (s_at s ++ [n]) y' (s_at s' ++ [n'])) ys ys'.
Proof.
  intros ca cgf lo hi s s' cs ys ys' k n n' HP Hc NB [[B V] VB] [[B' V'] _] HK G G' C H H' Hk L.
  apply (run_sounds ca cgf lo hi HP (has_attention cs) s s' HK VB G G' B B' cs 0 (s_inputs s) (s_inputs s')); auto.
  - intros m m' [[_ [_ F]] _]. exact F.
  - rewrite Nat.add_0_r. exact (sounds_alike_mono _ _ _ _ _ _ _ Hk L).
Qed.
Print Assumptions C74_network.

(** ** Molecules *)

Lemma perm_partition : forall (A : Type) (q : A -> bool) l, Permutation (filter q l ++ filter (fun a => negb (q a)) l) l.
Proof.
  intros A q. induction l as [|a l IH]; cbn; [constructor|]. destruct (q a); cbn; [now constructor|].
  eapply Permutation_trans; [apply Permutation_sym, Permutation_middle|]. now constructor.
Qed.
Lemma filter_map : forall (A B : Type) (q : B -> bool) (f : A -> B) l, filter q (map f l) = map f (filter (fun a => q (f a)) l).
Proof. intros A B q f. induction l as [|a l IH]; cbn; [reflexivity|]. destruct (q (f a)); cbn; now rewrite IH. Qed.
Lemma map_eq_related : forall (A B C : Type) (f : A -> C) (g : B -> C) l l', map f l = map g l' -> Forall2 (fun a b => f a = g b) l l'.
Proof. induction l as [|a l IH]; intros [|b l'] H; cbn in H; try discriminate; constructor; [now injection H|]. apply IH. now injection H. Qed.
Lemma map_nth_seq : forall (A : Type) (d : A) l, map (fun k => nth k l d) (seq 0 (length l)) = l.
Proof.
  intros A d. induction l as [|a l IH]; [reflexivity|]. cbn [length seq map nth]. f_equal. rewrite <- seq_shift, map_map. exact IH.
Qed.

Definition heard (c : R -> R) (A : molecule) (e : nat * nat) : bool := if Req_EM_T (c (distance A e)) 0 then false else true.
Definition pair_at (A : molecule) (e : list nat * nat) : nat * nat := nth (hd 0%nat (fst e)) (pairs A) (0%nat, 0%nat).

Lemma incoming_pairs : forall A n, map (pair_at A) (incoming (sparse_graph (map fst (pairs A)) (map snd (pairs A))) (atoms A) [] n) = filter (fun e => (fst e =? n)%nat) (pairs A).
Proof.
  intros A n. unfold incoming, sparse_graph. cbn [g_adj g_dst g_src]. rewrite map_map, map_length. cbn [app pair_at fst hd].
  pose proof (filter_map _ _ (fun e : nat * nat => (fst e =? n)%nat) (fun k => nth k (pairs A) (0%nat, 0%nat)) (seq 0 (length (pairs A)))) as E. rewrite map_nth_seq in E. rewrite E.
  unfold pair_at. cbn [fst hd]. f_equal. apply filter_ext_in. intros k Hk. apply in_seq in Hk.
  rewrite at_node_nat, map_length. destruct (Nat.ltb_spec k (length (pairs A))); [|lia]. cbn [andb]. f_equal. change 0%nat with (fst (0%nat, 0%nat)) at 1. now rewrite map_nth.
Qed.
Lemma incoming_pair : forall A n e, In e (incoming (sparse_graph (map fst (pairs A)) (map snd (pairs A))) (atoms A) [] n) ->
  exists k, (k < length (pairs A))%nat /\ fst e = [k] /\ nth_error (pairs A) k = Some (n, snd e) /\ pair_at A e = (n, snd e).
Proof.
  intros A n e He. apply sparse_in in He as [k [Hk [Hn ->]]]. rewrite map_length in Hk. exists k. split; [exact Hk|]. split; [reflexivity|].
  pose proof (pairs_nth _ _ Hk) as P. rewrite Hn in P. split; [exact P|]. unfold pair_at. cbn [fst app hd]. now apply nth_error_nth.
Qed.
Lemma filter_swap : forall (A : Type) (p q : A -> bool) l, filter p (filter q l) = filter q (filter p l).
Proof. intros A p q. induction l as [|a l IH]; cbn; [reflexivity|]. destruct (q a) eqn:Q, (p a) eqn:P; cbn; rewrite ?Q, ?P, ?IH; reflexivity. Qed.
Lemma heard_partners : forall c A n, map (fun e => snd (pair_at A e)) (filter (fun e => heard c A (pair_at A e)) (incoming (sparse_graph (map fst (pairs A)) (map snd (pairs A))) (atoms A) [] n)) = partners c A n.
Proof.
  intros c A n. unfold partners, within. rewrite filter_swap, <- incoming_pairs. fold (heard c A). rewrite filter_map, map_map. reflexivity.
Qed.
Lemma related_map : forall (A A' B B' : Type) (R : B -> B' -> Prop) (f : A -> B) (g : A' -> B') l l', Forall2 R (map f l) (map g l') -> Forall2 (fun a b => R (f a) (g b)) l l'.
Proof. intros A A' B B' R f g. induction l as [|a l IH]; intros [|b l'] H; inversion H; subst; constructor; auto. Qed.
Lemma related_in : forall (A B : Type) (R : A -> B -> Prop) l l', Forall2 R l l' -> Forall2 (fun a b => In a l /\ In b l' /\ R a b) l l'.
Proof.
  intros A B R l l' H. induction H as [|a b l l' H _ IH]; constructor; [split; [now left|]; split; [now left|exact H]|].
  apply (Forall2_weaken _ _ _ _ _ _ (fun x y (X : In x l /\ In y l' /\ R x y) => conj (or_intror (proj1 X)) (conj (or_intror (proj1 (proj2 X))) (proj2 (proj2 X)))) IH).
Qed.

Definition molecule_scene (M : model) (A : molecule) (x : feat) (y : basis_output) : scene :=
  mkScene [x] (Some (edge_features (m_dtype M) (length (pairs A)) (m_degree M) (m_num M) y)) (edge_cutoffs y) (sparse_graph (map fst (pairs A)) (map snd (pairs A))) (atoms A) [].
Definition basis_of (M : model) (A : molecule) (y : basis_output) : Prop :=
  basis_returns (m_tiny M) (displacements (position A) (pairs A)) (m_degree M) (m_num M) (fun x _ => Ok (map (m_radial M) x))
    (option_map everywhere (m_cutoff M)) (m_return_cutoff M) false (option_map everywhere (m_damping M)) (m_cartesian M) y.

Lemma some_displacements : forall A, pairs A <> [] -> displacements (position A) (pairs A) <> [].
Proof. intros A H. destruct (pairs A); [contradiction|discriminate]. Qed.

Lemma silent_pair : forall M A x y c (att : Prop) k e, proper_model M -> pairs A <> [] -> basis_of M A y -> m_cutoff M = Some c -> (att -> m_return_cutoff M = true) ->
  nth_error (pairs A) k = Some e -> heard c A e = false -> silent att (molecule_scene M A x y) [k].
Proof.
  intros M A x y c att k [a b] PM Hne Hy Hc Hatt Ek HH. pose proof PM as [HP [_ [Ht [HL [Hg Hrc]]]]].
  unfold heard in HH. destruct (Req_EM_T (c (distance A (a, b))) 0) as [E0|]; [|discriminate]. unfold distance in E0. cbn [fst snd] in E0.
  destruct (basis_values _ _ _ _ _ _ _ _ _ _ _ Ht (some_displacements A Hne) HL Hg Hrc Hy) as [C [ys [_ V]]]. pose proof (displacements_nth (position A) _ _ _ _ Ek) as Vk.
  assert (Hk : (k < length (pairs A))%nat) by (apply nth_error_Some; congruence). rewrite Hc in *. cbn [factor] in *. split.
  - cbn [molecule_scene s_basis]. intros p d f Hp Hd Hf. cbn [fS fD fF edge_features] in *. cbn [fv edge_features].
    destruct (Nat.ltb_spec k (length (pairs A))); [|lia]. destruct (Nat.ltb_spec f (Z.to_nat (m_num M))); [|lia]. cbn [andb]. rewrite (V _ _ _ _ Vk Hd Hf), E0. ring.
  - intros Ha. cbn [molecule_scene s_cutoff]. unfold edge_cutoffs. rewrite C, (Hatt Ha). cbn [cutoff_at]. rewrite (nth_error_nth _ _ 0 (x := 0)); [reflexivity|]. rewrite nth_error_map, Vk. cbn [option_map]. now rewrite E0.
Qed.

Lemma pair_alike : forall M A A' x x' y y' k k' a b a' b', proper_model M -> pairs A <> [] -> pairs A' <> [] -> basis_of M A y -> basis_of M A' y' ->
  nth_error (pairs A) k = Some (a, b) -> nth_error (pairs A') k' = Some (a', b') -> vector_to A' a' b' = vector_to A a b ->
  edge_alike (molecule_scene M A x y) (molecule_scene M A' x' y') [k] [k'].
Proof.
  intros M A A' x x' y y' k k' a b a' b' PM Hne Hne' Hy Hy' Ek Ek' EV. pose proof PM as [HP [_ [Ht [HL [Hg Hrc]]]]].
  pose proof (displacements_nth (position A) _ _ _ _ Ek) as Vk. pose proof (displacements_nth (position A') _ _ _ _ Ek') as Vk'. unfold vector_to in EV. rewrite EV in Vk'.
  assert (Hk : (k < length (pairs A))%nat) by (apply nth_error_Some; congruence). assert (Hk' : (k' < length (pairs A'))%nat) by (apply nth_error_Some; congruence).
  destruct (basis_same _ _ _ _ _ _ _ _ _ _ _ _ _ _ _ _ Ht (some_displacements A Hne) (some_displacements A' Hne') HL Hg Hrc Hy Hy' Vk Vk') as [SE SC].
  split; [|exact SC]. cbn [s_basis molecule_scene]. repeat (split; [reflexivity|]). cbn [fS fD fv edge_features]. intros p d f _ Hd.
  destruct (Nat.ltb_spec k (length (pairs A))); [|lia]. destruct (Nat.ltb_spec k' (length (pairs A'))); [|lia]. cbn [andb]. destruct (Nat.ltb_spec f (Z.to_nat (m_num M))); [|reflexivity]. now apply SE.
Qed.

Lemma surroundings_alike : forall M A A' x x' y y' c (att : Prop), proper_model M -> proper_molecule M A -> proper_molecule M A' -> basis_of M A y -> basis_of M A' y' -> m_cutoff M = Some c -> (att -> m_return_cutoff M = true) ->
  (forall n n', (n < atoms A)%nat -> (n' < atoms A')%nat -> number A' n' = number A n -> alike x [n] x' [n']) ->
  forall k n n', same_surroundings c A A' k n n' -> sounds_alike att (molecule_scene M A x y) (molecule_scene M A' x' y') k n n'.
Proof.
  intros M A A' x x' y y' c att PM PA PA' Hy Hy' Hc Hatt HX.
  assert (NA : forall n n', (n < atoms A)%nat /\ (n' < atoms A')%nat /\ number A' n' = number A n -> node_alike (molecule_scene M A x y) (molecule_scene M A' x' y') n n').
  { intros n n' [H1 [H2 H3]]. split; [exact H1|]. split; [exact H2|]. cbn [molecule_scene s_inputs s_at app]. constructor; [now apply HX|constructor]. }
  induction k as [|k IH]; intros n n' [H0 H1]; (split; [now apply NA|]); [exact I|].
  destruct H1 as [ms' [HP HF]]. rewrite <- heard_partners in HF. rewrite <- heard_partners in HP. apply Permutation_map_inv in HP as [es' [-> HP]].
  apply related_map, related_in in HF.
  set (inc := incoming (sparse_graph (map fst (pairs A)) (map snd (pairs A))) (atoms A) [] n) in *. set (inc' := incoming (sparse_graph (map fst (pairs A')) (map snd (pairs A'))) (atoms A') [] n') in *.
  exists (filter (fun e => heard c A (pair_at A e)) inc), (filter (fun e => negb (heard c A (pair_at A e))) inc), es', (filter (fun e => negb (heard c A' (pair_at A' e))) inc').
  cbn [molecule_scene s_graph s_nodes s_at]. fold inc inc'. split; [apply perm_partition|]. split.
  { eapply Permutation_trans; [|apply (perm_partition _ (fun e => heard c A' (pair_at A' e)))]. apply Permutation_app_tail. now apply Permutation_sym. }
  split; [|split].
  - refine (Forall2_weaken _ _ _ _ _ _ _ HF). intros e e' [I1 [I2 [I3 I4]]]. apply filter_In in I1 as [I1 _]. apply (Permutation_in _ (Permutation_sym HP)) in I2. apply filter_In in I2 as [I2 _].
    apply incoming_pair in I1 as [j [Hj [Fj [Nj Pj]]]]. apply incoming_pair in I2 as [j' [Hj' [Fj' [Nj' Pj']]]]. rewrite Pj, Pj' in I3, I4. cbn [snd] in I3, I4.
    rewrite Fj, Fj'. split; [|now apply IH]. exact (pair_alike _ _ _ _ _ _ _ _ _ _ _ _ _ PM (proj1 PA) (proj1 PA') Hy Hy' Nj Nj' I3).
  - apply Forall_forall. intros e He. apply filter_In in He as [I1 I2]. apply incoming_pair in I1 as [j [Hj [Fj [Nj Pj]]]]. rewrite Fj. rewrite Pj in I2.
    apply (silent_pair _ _ _ _ _ _ _ _ PM (proj1 PA) Hy Hc Hatt Nj). now apply negb_true_iff.
  - apply Forall_forall. intros e He. apply filter_In in He as [I1 I2]. apply incoming_pair in I1 as [j [Hj [Fj [Nj Pj]]]]. rewrite Fj. rewrite Pj in I2.
    apply (silent_pair _ _ _ _ _ _ _ _ PM (proj1 PA') Hy' Hc Hatt Nj). now apply negb_true_iff.
Qed.

(** The prediction for an atom depends only on atoms within the cutoff of the atom, on atoms within the cutoff of these, and so on,
    with as many steps as the network goes along edges: on their kind and relative positions. *)
Theorem C74_surroundings : forall M A A' c ys ys' k n n', proper_model M -> proper_molecule M A -> proper_molecule M A' -> close_enough M A -> close_enough M A' ->
  m_cutoff M = Some c -> (has_attention (m_calls M) -> m_return_cutoff M = true) -> Forall no_basis_bias (m_calls M) ->
  predicts M A ys -> predicts M A' ys' -> (depth (m_calls M) <= k)%nat -> same_surroundings c A A' k n n' ->
  Forall2 (fun y y' => alike y [n] y' [n']) ys ys'.
Proof.
  intros M A A' c ys ys' k n n' PM PA PA' CE CE' Hc Hatt NB [e [x [y [Ee [Ax [Hy H]]]]]] [e' [x' [y' [Ee' [Ax' [Hy' H']]]]]] Hk L.
  pose proof PM as [HP [Hpc [Ht [HL [Hg Hrc]]]]]. pose proof PA as [Hne [Hin Hz]]. pose proof PA' as [Hne' [Hin' Hz']].
  destruct (embed_part _ _ _ _ Ee Ax) as [X1 [X2 [X3 [X4 [X5 XV]]]]]. destruct (embed_part _ _ _ _ Ee' Ax') as [Y1 [Y2 [Y3 [Y4 [Y5 YV]]]]].
  assert (DEG : degrees (m_degree M) = S (Z.to_nat (m_degree M))) by (unfold degrees; lia).
  assert (NA : forall B z w, fB z = [atoms B] -> fS z = 1%nat -> fD z = 1%nat -> node_arrays (molecule_scene M B z w)).
  { intros B z w Z1 Z2 Z3. split.
    - exists []. constructor; [|constructor]. split; [exists 0%nat; split; [now left|exact Z3]|exact Z1].
    - intros bs E. injection E as <-. exists (Z.to_nat (m_degree M)). split; [now left|]. cbn [fD edge_features]. rewrite DEG. reflexivity. }
  assert (GG : forall B, Forall (fun e => (fst e < atoms B)%nat /\ (snd e < atoms B)%nat) (pairs B) -> good_graph (sparse_graph (map fst (pairs B)) (map snd (pairs B))) (atoms B) []).
  { intros B F. apply sparse_good; [now rewrite !map_length|]. apply Forall_map. eapply Forall_impl; [|exact F]. intros [a b] [_ X]. exact X. }
  apply (C74_network (m_cartesian M) (m_cg M) (m_low M) (m_high M) (molecule_scene M A x y) (molecule_scene M A' x' y') (m_calls M) ys ys' k n n'); auto.
  - repeat split.
  - now apply GG.
  - now apply GG.
  - intros HA. split; [exact (cutoffs_good M A y PM Hne CE HA Hy)|exact (cutoffs_good M A' y' PM Hne' CE' HA Hy')].
  - apply (surroundings_alike M A A' x x' y y' c); auto. intros m m' Hm Hm' EN.
    split; [congruence|]. split; [congruence|]. split; [congruence|]. split; [congruence|]. intros p d f Hp Hd. rewrite X2 in Hp. rewrite X3 in Hd. replace p with 0%nat by lia. replace d with 0%nat by lia.
    rewrite (XV m f Hm (Hz m Hm)), (YV m' f Hm' (Hz' m' Hm')), EN. reflexivity.
Qed.
Print Assumptions C74_surroundings.

Lemma perm_filter : forall (A : Type) (q : A -> bool) l l', Permutation l l' -> Permutation (filter q l) (filter q l').
Proof. intros A q l l' H. induction H; cbn; [constructor|destruct (q x); [now constructor|assumption]|destruct (q x), (q y); try constructor; apply Permutation_refl|eapply Permutation_trans; eassumption]. Qed.

Lemma far_atoms : forall M A A' c ys ys', proper_model M -> proper_molecule M A -> proper_molecule M A' -> close_enough M A -> close_enough M A' ->
  m_cutoff M = Some c -> (has_attention (m_calls M) -> m_return_cutoff M = true) -> Forall no_basis_bias (m_calls M) ->
  (atoms A <= atoms A')%nat -> (forall n, (n < atoms A)%nat -> number A' n = number A n /\ position A' n = position A n) ->
  Permutation (filter (fun e => (fst e <? atoms A)%nat) (within c A')) (within c A) ->
  predicts M A ys -> predicts M A' ys' -> Forall2 (fun y y' => forall n, (n < atoms A)%nat -> alike y [n] y' [n]) ys ys'.
Proof.
  intros M A A' c ys ys' PM PA PA' CE CE' Hc Hatt NB HN HP HW H H'.
  assert (SS : forall k n, (n < atoms A)%nat -> same_surroundings c A A' k n n).
  { induction k as [|k IH]; intros n Hn; (split; [split; [exact Hn|]; split; [lia|now apply HP]|]); [exact I|]. exists (partners c A n). split.
    - unfold partners. apply Permutation_map.
      eapply Permutation_trans; [apply perm_filter, Permutation_sym, HW|]. rewrite filter_swap.
      assert (F : forall l, filter (fun e : nat * nat => (fst e <? atoms A)%nat) (filter (fun e => (fst e =? n)%nat) l) = filter (fun e => (fst e =? n)%nat) l).
      { induction l as [|e l IHl]; cbn [filter]; [reflexivity|]. destruct (Nat.eqb_spec (fst e) n) as [E|]; [|exact IHl]. cbn [filter]. destruct (Nat.ltb_spec (fst e) (atoms A)); [now rewrite IHl|lia]. }
      rewrite F. apply Permutation_refl.
    - assert (IN : forall m, In m (partners c A n) -> (m < atoms A)%nat).
      { intros m Hm. apply in_map_iff in Hm as [e [<- He]]. apply filter_In in He as [He _]. apply filter_In in He as [He _]. destruct PA as [_ [Hin _]]. rewrite Forall_forall in Hin. now apply Hin. }
      revert IN. generalize (partners c A n). intros l IN. induction l as [|m l IHl]; constructor.
      + assert (Hm : (m < atoms A)%nat) by (apply IN; now left). split; [|now apply IH]. unfold vector_to. now rewrite (proj2 (HP m Hm)), (proj2 (HP n Hn)).
      + apply IHl. intros; apply IN; now right. }
  assert (ALL : forall n, (n < atoms A)%nat -> Forall2 (fun y y' => alike y [n] y' [n]) ys ys').
  { intros n Hn. apply (C74_surroundings M A A' c ys ys' (depth (m_calls M)) n n); auto. }
  apply (Forall2_all (atoms A) (fun n y y' => alike y [n] y' [n])); [exact ALL|].
  destruct H as [? [? [? [_ [_ [_ H]]]]]]. destruct H' as [? [? [? [_ [_ [_ H']]]]]]. now rewrite (run_length _ _ _ _ _ _ _ _ _ H), (run_length _ _ _ _ _ _ _ _ _ H').
Qed.

Lemma within_closer : forall c r A, (forall x, r <= x -> c x = 0) -> within c A = filter (heard c A) (closer r A).
Proof.
  intros c r A H. unfold within, closer. fold (heard c A). induction (pairs A) as [|e l IH]; [reflexivity|]. cbn [filter].
  destruct (Rlt_dec (distance A e) r) as [D|D]; [cbn [filter]; now rewrite IH|]. unfold heard at 1. rewrite (H (distance A e)) by lra. destruct (Req_EM_T 0 0); [exact IH|contradiction].
Qed.
Lemma filter_ext_on : forall (A : Type) (p q : A -> bool) l, (forall a, In a l -> p a = q a) -> filter p l = filter q l.
Proof. intros A p q l H. now apply filter_ext_in. Qed.

(** The cutoff is zero for distances of r and more.  Atoms and pairs further away may be added or left out: if A' has the atoms of A
    and possibly others, and the same pairs that are closer than r end in atoms of A, then the predictions for the atoms of A are the same. *)
Theorem C74_far_atoms : forall M A A' c r ys ys', proper_model M -> proper_molecule M A -> proper_molecule M A' -> close_enough M A -> close_enough M A' ->
  m_cutoff M = Some c -> (forall x, r <= x -> c x = 0) -> (has_attention (m_calls M) -> m_return_cutoff M = true) -> Forall no_basis_bias (m_calls M) ->
  (atoms A <= atoms A')%nat -> (forall n, (n < atoms A)%nat -> number A' n = number A n /\ position A' n = position A n) ->
  Permutation (filter (fun e => (fst e <? atoms A)%nat) (closer r A')) (closer r A) ->
  predicts M A ys -> predicts M A' ys' -> Forall2 (fun y y' => forall n, (n < atoms A)%nat -> alike y [n] y' [n]) ys ys'.
Proof.
  intros M A A' c r ys ys' PM PA PA' CE CE' Hc Hr Hatt NB HN HP HW H H'. apply (far_atoms M A A' c ys ys'); auto.
  rewrite !(within_closer c r) by exact Hr. rewrite filter_swap.
  rewrite (filter_ext_on _ (heard c A') (heard c A)); [now apply perm_filter|]. intros [a b] He. apply (Permutation_in _ HW) in He. apply filter_In in He as [He _].
  destruct PA as [_ [Hin _]]. rewrite Forall_forall in Hin. destruct (Hin _ He) as [Ha Hb]. cbn [fst snd] in Ha, Hb. unfold heard, distance. cbn [fst snd]. now rewrite (proj2 (HP a Ha)), (proj2 (HP b Hb)).
Qed.
Print Assumptions C74_far_atoms.

(** The list of pairs need not be updated as long as it contains all pairs that are closer than r: other pairs do not change the energy. *)
Theorem C74_neighbour_list : forall M A ps c r k f v, proper_model M -> proper_molecule M A -> let A' := mkMolecule (atoms A) (number A) (position A) ps in
  proper_molecule M A' -> close_enough M A -> close_enough M A' ->
  m_cutoff M = Some c -> (forall x, r <= x -> c x = 0) -> (has_attention (m_calls M) -> m_return_cutoff M = true) -> Forall no_basis_bias (m_calls M) ->
  Permutation (closer r A') (closer r A) -> total M A k f v -> total M A' k f v.
Proof.
  intros M A ps c r k f v PM PA A' PA' CE CE' Hc Hr Hatt NB HW [ys [y [H [E ->]]]].
  destruct (proj1 (C75_every_molecule M A A' ys PM PA PA' H)) as [ys' H'].
  assert (F : Forall2 (fun y y' => forall n, (n < atoms A)%nat -> alike y [n] y' [n]) ys ys').
  { assert (EF : filter (fun e => (fst e <? atoms A)%nat) (closer r A') = closer r A').
    { destruct PA' as [_ [Hin _]]. unfold closer. revert Hin. cbn [pairs A' atoms]. clearbody A'. clear. intros Hin. induction Hin as [|e l [He _] _ IH]; [reflexivity|]. cbn [filter]. destruct (Rlt_dec _ _); [|exact IH].
      cbn [filter]. destruct (Nat.ltb_spec (fst e) (atoms A)); [now f_equal|lia]. }
    apply (C74_far_atoms M A A' c r ys ys' PM PA PA' CE CE' Hc Hr Hatt NB); [apply le_n|intros; split; reflexivity|rewrite EF; exact HW|exact H|exact H']. }
  assert (R : exists y', nth_error ys' k = Some y' /\ forall n, (n < atoms A)%nat -> alike y [n] y' [n]).
  { clear -F E. revert k E. induction F as [|a b l l' H _ IH]; intros [|k] E; cbn in E; try discriminate; [|exact (IH k E)]. injection E as <-. exists b. auto. }
  destruct R as [y' [E' R]]. exists ys', y'. split; [exact H'|]. split; [exact E'|].
  cbn [atoms A']. apply rsum_ext. intros n Hn. destruct (R n Hn) as [S1 [S2 [S3 [_ V]]]]. unfold comp. rewrite S1, S2.
  destruct (Nat.leb_spec ((0 + 1) * (0 + 1)) (fD y)); [|reflexivity]. destruct (Nat.eqb_spec (fS y) 2); [symmetry; apply V; lia|]. destruct (Nat.eqb_spec 0 (0 mod 2)); [|reflexivity].
  assert (SC : has_scalars y).
  { destruct H as [e0 [x [w [Ee [Ax [_ H]]]]]]. destruct (embed_part _ _ _ _ Ee Ax) as [_ [X2 [X3 _]]]. pose proof PM as [HP [Hpc _]].
    assert (AS : Forall has_scalars ys) by (refine (run_scalars _ _ _ (C67_checked _ _ HP) _ _ _ _ _ _ Hpc _ H); constructor; [|constructor]; exists 0%nat; split; [now left|exact X3]).
    rewrite Forall_forall in AS. exact (AS _ (nth_error_In _ _ E)). }
  symmetry. destruct SC as [q [[VS|VS] _]]; apply V; lia.
Qed.
Print Assumptions C74_neighbour_list.

(** ** Cases *)

(** A pair of atoms with an energy that depends on the distance; with a bias it also depends on the list of pairs. *)
Definition soft_network (bias : bool) : list call :=
  [UseMessagePass 0 (Some 0%Z) false bias (mkConv (mkDense (fun _ _ _ _ => 1) (fun _ => 1)) (PTensor (fun _ _ _ _ _ _ _ => 1)))].
Definition soft_model (bias : bool) (c : R -> R) : model := mkModel true (package_cg true) 0 0 2 1 0 (fun _ _ => 1) 1 0 1 (fun x => [x * x]) (Some c) None false (soft_network bias).
Definition soft_pair (d : R) (ps : list (nat * nat)) : molecule := mkMolecule 2 (fun n => Z.of_nat n) (fun n => match n with O => (0, 0, 0) | _ => (d, 0, 0) end) ps.

Lemma soft_step : forall bias cgf C x b, cgf 0%Z 0%Z 0%Z = Ok C -> fB x = [2%nat] -> fS x = 1%nat -> fD x = 1%nat -> fF x = 1%nat -> fdt x = 0%nat ->
  (exists z, run cgf 0 0 (Some (mkFeat [2%nat] 1 1 1 0 b)) None (sparse_graph [0; 1]%nat [1; 0]%nat) [x] (soft_network bias) = Ok [x; z] /\ fS z = 1%nat /\ fD z = 1%nat
    /\ fv z [0%nat] 0%nat 0%nat 0%nat = (b [0%nat] 0%nat 0%nat 0%nat + (if bias then 1 else 0)) * fv x [1%nat] 0%nat 0%nat 0%nat * C 0%nat 0%nat 0%nat
    /\ fv z [1%nat] 0%nat 0%nat 0%nat = (b [1%nat] 0%nat 0%nat 0%nat + (if bias then 1 else 0)) * fv x [0%nat] 0%nat 0%nat 0%nat * C 0%nat 0%nat 0%nat)
  /\ exists z, run cgf 0 0 (Some (mkFeat [1%nat] 1 1 1 0 b)) None (sparse_graph [0]%nat [1]%nat) [x] (soft_network bias) = Ok [x; z] /\ fS z = 1%nat /\ fD z = 1%nat
    /\ fv z [0%nat] 0%nat 0%nat 0%nat = (b [0%nat] 0%nat 0%nat 0%nat + (if bias then 1 else 0)) * fv x [1%nat] 0%nat 0%nat 0%nat * C 0%nat 0%nat 0%nat
    /\ fv z [1%nat] 0%nat 0%nat 0%nat = 0.
Proof.
  intros bias cgf C [xB xS xD xF xd xv] b H. cbn [fB fS fD fF fdt fv]. intros -> -> -> -> ->. split; eexists; split.
  - unfold soft_network. cbv -[Rplus Rmult IZR Rminus]. rewrite H. cbv -[Rplus Rmult IZR Rminus]. reflexivity.
  - cbn [fS fD fv]. split; [reflexivity|]. split; [reflexivity|]. destruct bias; cbv -[Rplus Rmult IZR Rminus]; split; ring.
  - unfold soft_network. cbv -[Rplus Rmult IZR Rminus]. rewrite H. cbv -[Rplus Rmult IZR Rminus]. reflexivity.
  - cbn [fS fD fv]. split; [reflexivity|]. split; [reflexivity|]. destruct bias; cbv -[Rplus Rmult IZR Rminus]; split; ring.
Qed.

Lemma size_axis : forall d, 0 <= d -> size (plus (d, 0, 0) (times (-1) (0, 0, 0))) = d /\ size (plus (0, 0, 0) (times (-1) (d, 0, 0))) = d.
Proof.
  intros d Hd. assert (E : forall t, t = d * d -> sqrt t = d) by (intros t ->; now apply sqrt_square). unfold size. split; apply E; cbn; ring.
Qed.

Lemma soft_total : forall bias c d, 0 <= d ->
  total (soft_model bias c) (soft_pair d [(0, 1); (1, 0)]%nat) 1 0 (2 * (d * d * c d + (if bias then 1 else 0)))
  /\ total (soft_model bias c) (soft_pair d [(0, 1)]%nat) 1 0 (d * d * c d + (if bias then 1 else 0)).
Proof.
  intros bias c d Hd. destruct (size_axis d Hd) as [SA SB].
  destruct (C71_scalars 2 1 None 0%nat (fun _ _ => 1) [2%nat] (fun i => Z.of_nat (nth 0 i 0%nat))) as [e [x [Ee [Ax _]]]].
  { intros [|n [|? ?]]; cbn [inside]; try tauto. intros [Hn _]. cbn [nth]. lia. }
  destruct (embed_part (soft_model bias c) (soft_pair d []) e x Ee Ax) as [X1 [X2 [X3 [X4 [X5 XV]]]]]. cbn [soft_model soft_pair m_features m_dtype m_species m_embedding atoms number] in X1, X2, X3, X4, X5, XV.
  destruct (C59_entries R 0 rzero real_clebsch_gordan 0 empty_world None IoOk 0 0 0 true rzero_test (cg_ready_empty _ _ _ _) call_ok_serial ltac:(lia) ltac:(lia) ltac:(lia)) as [c0 [Ec _]].
  assert (C1 : at3 0 c0 0 0 0 = 1).
  { assert (Hc : cg_array 0 0 0 true c0) by (exists 0%nat, empty_world, None, IoOk; auto using cg_ready_empty, call_ok_serial).
    destruct (C66_scalar_factor 0 0 0 true c0 0 0 0 Hc ltac:(cbn; lia) ltac:(lia) ltac:(lia)) as [Q _]. exact (Q ltac:(cbn; lia)). }
  assert (EC : package_cg true 0 0 0 = Ok (at3 0 c0)) by (unfold package_cg; now rewrite Ec).
  assert (BAS : forall ps, ps <> [] -> exists y, basis_of (soft_model bias c) (soft_pair d ps) y /\ cutoffs y = None
     /\ forall b v, nth_error (displacements (position (soft_pair d ps)) ps) b = Some v -> entry_of y b 0 0 = size v * size v * c (size v)).
  { intros ps Hps. set (rs := displacements (position (soft_pair d ps)) ps). assert (Hrs : rs <> []) by (unfold rs; destruct ps; [contradiction|discriminate]).
    destruct (basis_exists 1 rs 0 1 (fun x => [x * x]) (Some c) None false false true ltac:(lra) Hrs ltac:(lia) ltac:(reflexivity) ltac:(discriminate)) as [y Hy].
    destruct (basis_values 1 rs 0 1 (fun x => [x * x]) (Some c) None false false true y ltac:(lra) Hrs ltac:(lia) ltac:(reflexivity) ltac:(discriminate) Hy) as [CY [ys [SY VY]]].
    exists y. split; [exact Hy|]. split; [exact CY|]. intros b v Eb. rewrite (VY b v 0%nat 0%nat Eb ltac:(cbn; lia) ltac:(cbn; lia)). cbn [nth factor Nat.eqb].
    destruct (heading v) as [[h1 h2] h3] eqn:Eh. rewrite (proj1 (C21_low_degrees _ _ _ b h1 h2 h3 _ SY ltac:(rewrite nth_error_map, Eb; cbn [option_map]; now rewrite Eh))). ring. }
  assert (CZ : forall z, fS z = 1%nat -> fD z = 1%nat -> forall n, comp z [n] 0 0 0 0 = fv z [n] 0%nat 0%nat 0%nat) by (intros z Z1 Z2 n; unfold comp; rewrite Z1, Z2; reflexivity).
  split.
  - destruct (BAS [(0, 1); (1, 0)]%nat ltac:(discriminate)) as [y [Hy [CY V]]].
    destruct (soft_step bias (package_cg true) (at3 0 c0) x (fv (edge_features 0 2 0 1 y)) EC X1 X2 X3 X4 X5) as [[z [RZ [Z1 [Z2 [Z3 Z4]]]]] _].
    exists [x; z], z. split.
    + exists e, x, y. split; [exact Ee|]. split; [exact Ax|]. split; [exact Hy|].
      cbn [soft_model soft_pair m_cg m_low m_high m_dtype m_degree m_num m_calls pairs length map fst snd]. unfold edge_cutoffs. rewrite CY. exact RZ.
    + split; [reflexivity|]. cbn [soft_pair atoms rsum]. rewrite !(CZ z Z1 Z2), Z3, Z4, !XV, C1 by lia. cbn [edge_features fv]. change (Z.to_nat 1) with 1%nat. cbn [Nat.ltb Nat.leb andb].
      rewrite (V 0%nat _ eq_refl), (V 1%nat _ eq_refl). cbn [soft_pair position snd fst]. rewrite SA, SB. ring.
  - destruct (BAS [(0, 1)]%nat ltac:(discriminate)) as [y [Hy [CY V]]].
    destruct (soft_step bias (package_cg true) (at3 0 c0) x (fv (edge_features 0 1 0 1 y)) EC X1 X2 X3 X4 X5) as [_ [z [RZ [Z1 [Z2 [Z3 Z4]]]]]].
    exists [x; z], z. split.
    + exists e, x, y. split; [exact Ee|]. split; [exact Ax|]. split; [exact Hy|].
      cbn [soft_model soft_pair m_cg m_low m_high m_dtype m_degree m_num m_calls pairs length map fst snd]. unfold edge_cutoffs. rewrite CY. exact RZ.
    + split; [reflexivity|]. cbn [soft_pair atoms rsum]. rewrite !(CZ z Z1 Z2), Z3, Z4, !XV, C1 by lia. cbn [edge_features fv]. change (Z.to_nat 1) with 1%nat. cbn [Nat.ltb Nat.leb andb].
      rewrite (V 0%nat _ eq_refl). cbn [soft_pair position snd fst]. rewrite SA. ring.
Qed.

Lemma soft_proper : forall bias c, proper_model (soft_model bias c).
Proof.
  intros bias c. split; [apply package_cg_uses|]. split; [repeat constructor; intros d E; injection E as <-; lia|]. split; [cbn; lra|]. split; [cbn; lia|]. split; [reflexivity|discriminate].
Qed.
Lemma soft_pair_proper : forall bias c d ps, ps <> [] -> Forall (fun e => (fst e < 2)%nat /\ (snd e < 2)%nat) ps -> proper_molecule (soft_model bias c) (soft_pair d ps).
Proof. intros bias c d ps H F. split; [exact H|]. split; [exact F|]. cbn [soft_pair atoms number soft_model m_species]. intros n Hn. lia. Qed.
Lemma soft_close : forall bias c A, close_enough (soft_model bias c) A.
Proof. intros bias c A H. discriminate. Qed.

(** With use_basis_bias = True (not the default) the statement is false: pairs beyond the cutoff change the energy. *)
Theorem C74_basis_bias_refuted : exists M A ps c r v v', proper_model M /\ proper_molecule M A /\ (let A' := mkMolecule (atoms A) (number A) (position A) ps in
  proper_molecule M A' /\ close_enough M A /\ close_enough M A' /\
  m_cutoff M = Some c /\ (forall x, smooth_cutoff x r = Ok (c x)) /\ (forall x, r <= x -> c x = 0) /\ ~ has_attention (m_calls M) /\
  closer r A' = closer r A /\ total M A 1 0 v /\ total M A' 1 0 v' /\ v' <> v).
Proof.
  destruct (C41_smooth_cutoff 1 ltac:(lra)) as [c [Ec [_ [_ [_ [_ [Zc _]]]]]]].
  destruct (soft_total true c 2 ltac:(lra)) as [T2 T1]. destruct (size_axis 2 ltac:(lra)) as [SA SB].
  exists (soft_model true c), (soft_pair 2 [(0, 1)]%nat), [(0, 1); (1, 0)]%nat, c, 1, (2 * 2 * c 2 + 1), (2 * (2 * 2 * c 2 + 1)).
  split; [apply soft_proper|]. split; [apply soft_pair_proper; [discriminate|repeat constructor]|]. cbv zeta. split; [apply soft_pair_proper; [discriminate|repeat constructor]|].
  split; [apply soft_close|]. split; [apply soft_close|]. split; [reflexivity|]. split; [exact Ec|]. split; [exact Zc|]. split.
  - intros [i [j [o [P [H|[]]]]]]. discriminate.
  - split.
    + unfold closer. cbn [pairs soft_pair filter]. unfold distance. cbn [position soft_pair fst snd]. rewrite SA, SB. destruct (Rlt_dec 2 1); [lra|reflexivity].
    + split; [exact T1|]. split; [exact T2|]. rewrite (Zc 2) by lra. lra.
Qed.
Print Assumptions C74_basis_bias_refuted.

(** Without the bias, the pair (1, 0) beyond the cutoff makes no difference; the pairs closer than 3 have energies. *)
Example C74_case : exists c, (forall x, smooth_cutoff x 3 = Ok (c x)) /\ (forall x, 3 <= x -> c x = 0) /\ c 1 <> 0 /\
  let M := soft_model false c in proper_model M /\ Forall no_basis_bias (m_calls M) /\
  closer 3 (soft_pair 5 [(0, 1)]%nat) = closer 3 (soft_pair 5 [(0, 1); (1, 0)]%nat) /\
  total M (soft_pair 5 [(0, 1)]%nat) 1 0 0 /\ total M (soft_pair 5 [(0, 1); (1, 0)]%nat) 1 0 0 /\
  closer 3 (soft_pair 1 [(0, 1); (1, 0)]%nat) = [(0, 1); (1, 0)]%nat /\ total M (soft_pair 1 [(0, 1); (1, 0)]%nat) 1 0 (2 * c 1).
Proof.
  destruct (C41_smooth_cutoff 3 ltac:(lra)) as [c [Ec [_ [_ [Pc [_ [Zc _]]]]]]].
  exists c. split; [exact Ec|]. split; [exact Zc|]. split; [specialize (Pc 1 ltac:(lra)); lra|]. cbv zeta. split; [apply soft_proper|]. split; [repeat constructor|].
  destruct (soft_total false c 5 ltac:(lra)) as [T2 T1]. destruct (size_axis 5 ltac:(lra)) as [SA SB]. destruct (size_axis 1 ltac:(lra)) as [SA' SB'].
  split; [|split; [|split; [|split]]].
  - unfold closer. cbn [pairs soft_pair filter]. unfold distance. cbn [position soft_pair fst snd]. rewrite SA, SB. destruct (Rlt_dec 5 3); [lra|reflexivity].
  - rewrite (Zc 5) in T1 by lra. replace 0 with (5 * 5 * 0 + 0) by ring. exact T1.
  - apply (C74_neighbour_list (soft_model false c) (soft_pair 5 [(0, 1)]%nat) [(0, 1); (1, 0)]%nat c 3); auto using soft_proper, soft_close.
    + apply soft_pair_proper; [discriminate|repeat constructor].
    + apply soft_pair_proper; [discriminate|repeat constructor].
    + intros [i [j [o [P [H|[]]]]]]. discriminate.
    + repeat constructor.
    + unfold closer. cbn [pairs soft_pair filter]. unfold distance. cbn [position soft_pair fst snd]. rewrite SA, SB. destruct (Rlt_dec 5 3); [lra|constructor].
    + rewrite (Zc 5) in T1 by lra. replace 0 with (5 * 5 * 0 + 0) by ring. exact T1.
  - unfold closer. cbn [pairs soft_pair filter]. unfold distance. cbn [position soft_pair fst snd]. rewrite SA', SB'. destruct (Rlt_dec 1 3); [reflexivity|lra].
  - destruct (soft_total false c 1 ltac:(lra)) as [T _]. replace (2 * c 1) with (2 * (1 * 1 * c 1 + 0)) by ring. exact T.
Qed.
