(** C99: Cartesian tensors of any degree from irreps, as in the documentation. *)
Require Import List Reals ZArith Bool Lia Lra.
Require Import Verif.Base Verif.RSum Verif.Features_Model Verif.Features_Spec Verif.Modules_Model Verif.Modules_Spec Verif.LUT_Model Verif.LUT_Spec Verif.LUT_Props Verif.Symbolic_Model
  Verif.Rotations_Model Verif.Rotations_Spec Verif.Rotations_Proofs Verif.Irreps_Model Verif.Irreps_Spec Verif.Irreps_Laws_Proofs Verif.Irreps_Proofs Verif.Irreps_Props Verif.Clebsch_Model Verif.RealCG_Proofs Verif.CGTable_Proofs Verif.Clebsch_Props
  Verif.Wrappers_Model Verif.Wrappers_Spec Verif.Equivariance_Spec Verif.Equivariance_Props Verif.Structure_Props Verif.Network_Spec Verif.Network_Props Verif.Cartesian_Model Verif.Cartesian_Spec.
Import ListNotations.
Open Scope R_scope.
Arguments Nat.mul : simpl never.
Arguments Nat.modulo : simpl never.

(** * Sums over lists *)
Definition lsum {A : Type} (f : A -> R) (l : list A) : R := fold_right (fun a t => f a + t) 0 l.
Lemma lsum_ext : forall (A : Type) (f g : A -> R) l, (forall a, In a l -> f a = g a) -> lsum f l = lsum g l.
Proof. intros A f g l H. unfold lsum. induction l as [|a l IH]; [reflexivity|]. cbn [fold_right]. rewrite H by now left. f_equal. apply IH. intros; apply H; now right. Qed.
Lemma lsum_app : forall (A : Type) (f : A -> R) l l', lsum f (l ++ l') = lsum f l + lsum f l'.
Proof. intros A f l l'. unfold lsum. induction l as [|a l IH]; cbn [app fold_right]; [ring|]. rewrite IH. ring. Qed.
Lemma lsum_paths : forall (f : list nat -> R) (g : list nat -> list nat) l, lsum f (flat_map (fun q => map (fun x => x :: q) (g q)) l) = lsum (fun q => lsum (fun x => f (x :: q)) (g q)) l.
Proof.
  intros f g l. induction l as [|q l IH]; [reflexivity|]. cbn [flat_map]. rewrite lsum_app, IH. change (lsum (fun q => lsum (fun x => f (x :: q)) (g q)) (q :: l)) with (lsum (fun x => f (x :: q)) (g q) + lsum (fun q => lsum (fun x => f (x :: q)) (g q)) l).
  f_equal. unfold lsum. induction (g q) as [|x r IHr]; [reflexivity|]. cbn [map fold_right]. now rewrite IHr.
Qed.
Lemma lsum_rsum : forall (A : Type) (l : list A) n f, lsum (fun a => rsum n (f a)) l = rsum n (fun i => lsum (fun a => f a i) l).
Proof.
  intros A l n f. unfold lsum. induction l as [|a l IH]; cbn [fold_right]; [now rewrite rsum_zero|]. rewrite IH, <- rsum_plus. reflexivity.
Qed.
Lemma lsum_scal_l : forall (A : Type) (l : list A) k f, lsum (fun a => k * f a) l = k * lsum f l.
Proof. intros A l k f. unfold lsum. induction l as [|a l IH]; cbn [fold_right]; [ring|]. rewrite IH. ring. Qed.
Lemma lsum_scal_r : forall (A : Type) (l : list A) k f, lsum (fun a => f a * k) l = lsum f l * k.
Proof. intros A l k f. unfold lsum. induction l as [|a l IH]; cbn [fold_right]; [ring|]. rewrite IH. ring. Qed.
Lemma lsum_seq : forall n (b : nat -> bool) f, lsum f (filter b (seq 0 n)) = rsum n (fun i => if b i then f i else 0).
Proof.
  intros n b f. induction n as [|n IH]; [reflexivity|]. rewrite seq_S, filter_app, lsum_app, IH. cbn [rsum Nat.add filter]. destruct (b n); unfold lsum; cbn [fold_right]; ring.
Qed.
Lemma lsum_single : forall n (b : nat -> bool) f k, (k < n)%nat -> b k = true -> (forall i, i <> k -> b i = true -> f i = 0) -> lsum f (filter b (seq 0 n)) = f k.
Proof. intros n b f k Hk Hb Z. rewrite lsum_seq, (rsum_single n _ k Hk); [now rewrite Hb|]. intros i Hi N. destruct (b i) eqn:E; [now apply Z|reflexivity]. Qed.

Lemma next_triangle : forall l l', In l' (next_degrees l) <-> (l' <= l + 1 /\ l <= 1 + l' /\ 1 <= l + l')%nat.
Proof. intros l l'. unfold next_degrees. rewrite filter_In, in_seq, andb_true_iff, !Nat.leb_le. lia. Qed.

Lemma paths_nonempty : forall n q, In q (paths n) -> q <> [] /\ (hd 1%nat q <= n + 1)%nat.
Proof.
  induction n as [|n IH]; intros q H; cbn [paths] in H.
  - destruct H as [<- |[]]. split; [discriminate|cbn; lia].
  - apply in_flat_map in H as [r [Hr Hq]]. apply in_map_iff in Hq as [l [<- Hl]]. split; [discriminate|]. apply next_triangle in Hl. destruct (IH r Hr). cbn [hd]. lia.
Qed.
Lemma index_S : forall n index, is_index (S n) index -> exists o r, index = o :: r /\ (o < 3)%nat /\ is_index n r.
Proof. intros n [|o r] [L F]; [discriminate|]. inversion F; subst. injection L as L. exists o, r. split; [reflexivity|]. split; [assumption|]. split; assumption. Qed.
Lemma index_0 : forall index, is_index 1 index -> exists i, index = [i] /\ (i < 3)%nat.
Proof. intros index H. destruct (index_S 0 index H) as [i [r [-> [Hi [L _]]]]]. destruct r; [eauto|discriminate]. Qed.
Lemma paths_step : forall n q l2, In q (paths n) -> In l2 (next_degrees (hd 1%nat q)) -> In (l2 :: q) (paths (S n)).
Proof. intros n q l2 Hq Hl. cbn [paths]. apply in_flat_map. exists q. split; [exact Hq|]. apply in_map_iff. eauto. Qed.

(** * Linear structure *)
Section Linear.
Variable c : nat -> nat -> nat -> R.
Lemma contribution_step : forall l2 l1 q x o index, contribution c (l2 :: l1 :: q) x (o :: index) = contribution c (l1 :: q) (fun n => rsum (2 * l2 + 1) (fun p => x p * c (l1 * l1 + n)%nat (1 + o)%nat (l2 * l2 + p)%nat)) index.
Proof. reflexivity. Qed.
Lemma contribution_plus : forall q x y index, contribution c q (fun k => x k + y k) index = contribution c q x index + contribution c q y index.
Proof.
  induction q as [|l2 q IH]; intros x y index; [cbn; ring|]. destruct q as [|l1 q]; [destruct index as [|i [|]]; cbn; ring|]. destruct index as [|o index]; [cbn; ring|]. rewrite !contribution_step.
  rewrite <- IH. f_equal. apply FunctionalExtensionality.functional_extensionality. intros k. rewrite <- rsum_plus. apply rsum_ext. intros; ring.
Qed.
Lemma contribution_zero : forall q index, contribution c q (fun _ => 0) index = 0.
Proof.
  induction q as [|l2 q IH]; intros index; [reflexivity|]. destruct q as [|l1 q]; [destruct index as [|i [|]]; reflexivity|]. destruct index as [|o index]; [reflexivity|]. rewrite contribution_step.
  transitivity (contribution c (l1 :: q) (fun _ => 0) index); [|apply IH]. f_equal. apply FunctionalExtensionality.functional_extensionality. intros k. apply rsum_zero. intros; ring.
Qed.
Lemma contribution_lsum : forall (A : Type) q (f : A -> nat -> R) l index, lsum (fun a => contribution c q (f a) index) l = contribution c q (fun k => lsum (fun a => f a k) l) index.
Proof.
  intros A q f l index. induction l as [|a l IH]; [cbn; now rewrite contribution_zero|]. change (contribution c q (f a) index + lsum (fun a => contribution c q (f a) index) l = contribution c q (fun k => f a k + lsum (fun a => f a k) l) index).
  now rewrite contribution_plus, IH.
Qed.

(** The irreps that are left when the last index is fixed. *)
Definition fixed (X : list nat -> nat -> R) (o : nat) (q : list nat) (k : nat) : R :=
  lsum (fun l2 => rsum (2 * l2 + 1) (fun p => X (l2 :: q) p * c (hd 1%nat q * hd 1%nat q + k)%nat (1 + o)%nat (l2 * l2 + p)%nat)) (next_degrees (hd 1%nat q)).
Lemma tensor_S : forall n X o index, tensor_of c (S n) X (o :: index) = tensor_of c n (fixed X o) index.
Proof.
  intros n X o index. change (tensor_of c (S n) X (o :: index)) with (lsum (fun q => contribution c q (X q) (o :: index)) (paths (S n))).
  change (tensor_of c n (fixed X o) index) with (lsum (fun q => contribution c q (fixed X o q) index) (paths n)). cbn [paths]. rewrite lsum_paths. apply lsum_ext. intros q Hq.
  destruct (paths_nonempty n q Hq) as [NE _]. destruct q as [|l1 q]; [contradiction|]. unfold fixed. cbn [hd].
  exact (contribution_lsum nat (l1 :: q) (fun l2 k => rsum (2 * l2 + 1) (fun p => X (l2 :: l1 :: q) p * c (l1 * l1 + k)%nat (1 + o)%nat (l2 * l2 + p)%nat)) (next_degrees l1) index).
Qed.
Lemma tensor_ext : forall n X X' index, is_index (S n) index -> (forall q k, In q (paths n) -> (k < 2 * hd 1%nat q + 1)%nat -> X q k = X' q k) -> tensor_of c n X index = tensor_of c n X' index.
Proof.
  induction n as [|n IH]; intros X X' index HI H.
  - destruct (index_0 index HI) as [i [-> Hi]]. unfold tensor_of. cbn [paths fold_right contribution]. rewrite (H [1%nat] i); [reflexivity|now left|cbn; lia].
  - destruct (index_S _ _ HI) as [o [r [-> [Ho Hr]]]]. rewrite !tensor_S. apply IH; [exact Hr|]. intros q k Hq Hk. unfold fixed. apply lsum_ext. intros l2 Hl. apply rsum_ext. intros p Hp. rewrite H; [reflexivity|now apply paths_step|exact Hp].
Qed.
Lemma tensor_linear : forall n m (E : nat -> R) Y index, is_index (S n) index -> tensor_of c n (fun q k => rsum m (fun d => E d * Y d q k)) index = rsum m (fun d => E d * tensor_of c n (Y d) index).
Proof.
  induction n as [|n IH]; intros m E Y index HI.
  - destruct (index_0 index HI) as [i [-> Hi]]. unfold tensor_of. cbn [paths fold_right contribution]. rewrite Rplus_0_r. apply rsum_ext. intros; ring.
  - destruct (index_S _ _ HI) as [o [r [-> [Ho Hr]]]]. rewrite tensor_S. rewrite (rsum_ext m _ (fun d => E d * tensor_of c n (fixed (Y d) o) r)) by (intros; now rewrite tensor_S). rewrite <- IH by exact Hr.
    apply tensor_ext; [exact Hr|]. intros q k Hq Hk. unfold fixed.
    rewrite (lsum_ext _ _ (fun l2 => rsum m (fun d => E d * rsum (2 * l2 + 1) (fun p => Y d (l2 :: q) p * c (hd 1%nat q * hd 1%nat q + k)%nat (1 + o)%nat (l2 * l2 + p)%nat)))).
    + rewrite lsum_rsum. apply rsum_ext. intros d _. now rewrite lsum_scal_l.
    + intros l2 _. rewrite (rsum_ext (2 * l2 + 1) _ (fun p => rsum m (fun d => E d * (Y d (l2 :: q) p * c (hd 1%nat q * hd 1%nat q + k)%nat (1 + o)%nat (l2 * l2 + p)%nat)))) by (intros; rewrite <- rsum_scal_r; apply rsum_ext; intros; ring).
      rewrite rsum_swap. apply rsum_ext. intros d _. now rewrite rsum_scal_l.
Qed.
Lemma irreps_step : forall T l2 l1 q p, irreps_of c T (l2 :: l1 :: q) p = rsum 3 (fun o => rsum (2 * l1 + 1) (fun n => irreps_of c (fun index => T (o :: index)) (l1 :: q) n * c (l1 * l1 + n)%nat (1 + o)%nat (l2 * l2 + p)%nat)).
Proof. reflexivity. Qed.
Lemma irreps_ext : forall n T T' q p, In q (paths n) -> (p < 2 * hd 1%nat q + 1)%nat -> (forall index, is_index (S n) index -> T index = T' index) -> irreps_of c T q p = irreps_of c T' q p.
Proof.
  induction n as [|n IH]; intros T T' q p Hq Hp H.
  - destruct Hq as [<- |[]]. cbn [irreps_of]. apply H. split; [reflexivity|]. constructor; [cbn in Hp; lia|constructor].
  - cbn [paths] in Hq. apply in_flat_map in Hq as [r [Hr Hq]]. apply in_map_iff in Hq as [l [<- Hl]]. destruct (paths_nonempty n r Hr) as [NE _]. destruct r as [|l1 r]; [contradiction|]. rewrite !irreps_step.
    apply rsum_ext. intros o Ho. apply rsum_ext. intros k Hk. f_equal. apply IH; [exact Hr|exact Hk|]. intros index [L F]. apply H. split; [cbn; lia|]. constructor; assumption.
Qed.
End Linear.

Lemma sandwich : forall N M (E F f : nat -> nat -> R) i j, (i < N)%nat -> (j < M)%nat ->
  (forall a b, (a < N)%nat -> (b < N)%nat -> rsum N (fun p => E p a * E p b) = if (a =? b)%nat then 1 else 0) -> (forall a b, (a < M)%nat -> (b < M)%nat -> rsum M (fun p => F p a * F p b) = if (a =? b)%nat then 1 else 0) ->
  rsum N (fun a => rsum M (fun b => E a i * F b j * rsum N (fun i' => rsum M (fun j' => E a i' * F b j' * f i' j')))) = f i j.
Proof.
  intros N M E F f i j Hi Hj OE OF.
  transitivity (rsum N (fun i' => rsum M (fun j' => rsum N (fun p => E p i * E p i') * rsum M (fun p => F p j * F p j') * f i' j'))).
  - rewrite (rsum_ext N _ (fun a => rsum N (fun i' => rsum M (fun j' => rsum M (fun b => (E a i * E a i') * (F b j * F b j') * f i' j'))))).
    + rewrite rsum_swap. apply rsum_ext. intros i' _. rewrite rsum_swap. apply rsum_ext. intros j' _. rewrite <- rsum_scal_r, <- rsum_scal_r. apply rsum_ext. intros a _. rewrite rsum_scal_r, rsum_scal_l. reflexivity.
    + intros a _. rewrite (rsum_ext M _ (fun b => rsum N (fun i' => rsum M (fun j' => (E a i * E a i') * (F b j * F b j') * f i' j')))).
      * rewrite rsum_swap. apply rsum_ext. intros i' _. apply rsum_swap.
      * intros b _. rewrite <- rsum_scal_l. apply rsum_ext. intros i' _. rewrite <- rsum_scal_l. apply rsum_ext. intros; ring.
  - rewrite (rsum_single N _ i Hi).
    + rewrite (rsum_single M _ j Hj).
      * rewrite OE, OF, !Nat.eqb_refl by assumption. ring.
      * intros j' Hj' X. rewrite (OF j j') by assumption. destruct (Nat.eqb_spec j j'); [congruence|ring].
    + intros i' Hi' X. apply rsum_zero. intros j' Hj'. rewrite (OE i i') by assumption. destruct (Nat.eqb_spec i i'); [congruence|ring].
Qed.

(** * Coefficients *)
Section Coupled.
Variables (cgf : Z -> Z -> Z -> result (nat -> nat -> nat -> R)) (L1 L3 : Z) (c : nat -> nat -> nat -> R).
Hypothesis package : uses_package true cgf.
Hypothesis coefficients : cgf L1 1%Z L3 = Ok c.
Hypothesis enough : (0 <= L1 < L3)%Z.

Lemma complete : forall l k o k' o', (l < degrees L1)%nat -> (k < 2 * l + 1)%nat -> (o < 3)%nat -> (k' < 2 * l + 1)%nat -> (o' < 3)%nat ->
  lsum (fun l2 => rsum (2 * l2 + 1) (fun p => c (l * l + k)%nat (1 + o)%nat (l2 * l2 + p)%nat * c (l * l + k')%nat (1 + o')%nat (l2 * l2 + p)%nat)) (next_degrees l)
  = if ((k =? k')%nat && (o =? o')%nat)%bool then 1 else 0.
Proof using package coefficients enough.
  intros l k o k' o' Hl Hk Ho Hk' Ho'. destruct (package_array _ _ _ _ _ _ package coefficients) as [C [HC EC]]. rewrite EC. clear EC.
  assert (B : (l + 2 <= degrees L3)%nat) by (unfold degrees in *; lia). assert (B1 : (1 < degrees 1)%nat) by (cbn; lia).
  rewrite <- (C66_complete L1 1 L3 true C l 1 k o k' o' HC Hl B1 ltac:(lia) Hk Ho Hk' Ho'). rewrite rsum_degrees. unfold next_degrees. rewrite lsum_seq. symmetry.
  change (1 * 1)%nat with 1%nat.
  assert (Z : forall l3 p, (l3 < degrees L3)%nat -> (p < 2 * l3 + 1)%nat -> ~ (l3 <= l + 1 /\ l <= 1 + l3 /\ 1 <= l + l3)%nat -> at3 0 C (l * l + k)%nat (1 + o)%nat (l3 * l3 + p)%nat = 0).
  { intros l3 p H3 Hp N. exact (C66_triangle L1 1 L3 true C l 1 l3 k o p HC Hl B1 H3 Hk Ho Hp N). }
  rewrite (rsum_extend (l + 2) (degrees L3)) by (lia || (intros l3 H3; apply rsum_zero; intros p Hp; rewrite Z by lia; ring)).
  apply rsum_ext. intros l3 H3. destruct (Nat.leb_spec l (1 + l3)); [destruct (Nat.leb_spec 1 (l + l3)); [reflexivity|]|]; cbn [andb]; apply rsum_zero; intros p Hp; rewrite Z by lia; ring.
Qed.
Lemma orthonormal : forall l l2 l2' p p', (l < degrees L1)%nat -> In l2 (next_degrees l) -> In l2' (next_degrees l) -> (p < 2 * l2 + 1)%nat -> (p' < 2 * l2' + 1)%nat ->
  rsum (2 * l + 1) (fun k => rsum 3 (fun o => c (l * l + k)%nat (1 + o)%nat (l2 * l2 + p)%nat * c (l * l + k)%nat (1 + o)%nat (l2' * l2' + p')%nat))
  = if (l2 * l2 + p =? l2' * l2' + p')%nat then 1 else 0.
Proof using package coefficients enough.
  intros l l2 l2' p p' Hl H2 H2' Hp Hp'. destruct (package_array _ _ _ _ _ _ package coefficients) as [C [HC EC]]. rewrite EC. clear EC. apply next_triangle in H2. apply next_triangle in H2'.
  assert (B : (l + 2 <= degrees L3)%nat) by (unfold degrees in *; lia). assert (B1 : (1 < degrees 1)%nat) by (cbn; lia).
  exact (C66_orthonormal L1 1 L3 true C l 1 l2 l2' p p' HC Hl B1 ltac:(lia) ltac:(lia) ltac:(lia) ltac:(lia) Hp Hp').
Qed.

(** Every tensor is that of its irreps ... *)
Lemma all_tensors : forall n T index, (n < degrees L1)%nat -> is_index (S n) index -> tensor_of c n (irreps_of c T) index = T index.
Proof using package coefficients enough.
  induction n as [|n IH]; intros T index HN HI.
  - destruct (index_0 index HI) as [i [-> Hi]]. unfold tensor_of. cbn [paths fold_right contribution irreps_of]. ring.
  - destruct (index_S _ _ HI) as [o [r [-> [Ho Hr]]]]. rewrite tensor_S. rewrite <- (IH (fun index => T (o :: index)) r ltac:(lia) Hr). apply tensor_ext; [exact Hr|].
    intros q k Hq Hk. destruct (paths_nonempty n q Hq) as [NE B]. destruct q as [|l1 q]; [contradiction|]. unfold fixed. cbn [hd] in *.
    set (A := fun o' k' => irreps_of c (fun index => T (o' :: index)) (l1 :: q) k'). change (irreps_of c (fun index => T (o :: index)) (l1 :: q) k) with (A o k).
    rewrite (lsum_ext _ _ (fun l2 => rsum 3 (fun o' => rsum (2 * l1 + 1) (fun k' => A o' k' * rsum (2 * l2 + 1) (fun p => c (l1 * l1 + k')%nat (1 + o')%nat (l2 * l2 + p)%nat * c (l1 * l1 + k)%nat (1 + o)%nat (l2 * l2 + p)%nat))))).
    2:{ intros l2 _. rewrite (rsum_ext (2 * l2 + 1) _ (fun p => rsum 3 (fun o' => rsum (2 * l1 + 1) (fun k' => A o' k' * (c (l1 * l1 + k')%nat (1 + o')%nat (l2 * l2 + p)%nat * c (l1 * l1 + k)%nat (1 + o)%nat (l2 * l2 + p)%nat))))).
        2:{ intros p _. rewrite irreps_step. rewrite <- rsum_scal_r. apply rsum_ext. intros o' _. rewrite <- rsum_scal_r. apply rsum_ext. intros k' _. unfold A. ring. }
        rewrite rsum_swap. apply rsum_ext. intros o' _. rewrite rsum_swap. apply rsum_ext. intros k' _. apply rsum_scal_l. }
    rewrite lsum_rsum. rewrite (rsum_single 3 _ o Ho).
    + rewrite lsum_rsum. rewrite (rsum_single _ _ k Hk).
      * rewrite lsum_scal_l, complete, !Nat.eqb_refl by (lia || assumption). cbn. ring.
      * intros k' Hk' N. rewrite lsum_scal_l, complete by (lia || assumption). destruct (Nat.eqb_spec k' k); [contradiction|]. cbn. ring.
    + intros o' Ho' N. rewrite lsum_rsum. apply rsum_zero. intros k' Hk'. rewrite lsum_scal_l, complete by (lia || assumption). destruct (Nat.eqb_spec o' o); [contradiction|]. rewrite andb_false_r. ring.
Qed.
(** ... and irreps are those of their tensor. *)
Lemma irreps_back : forall n X q p, (n < degrees L1)%nat -> In q (paths n) -> (p < 2 * hd 1%nat q + 1)%nat -> irreps_of c (tensor_of c n X) q p = X q p.
Proof using package coefficients enough.
  induction n as [|n IH]; intros X q p HN Hq Hp.
  - destruct Hq as [<- |[]]. unfold tensor_of. cbn [paths fold_right contribution irreps_of]. ring.
  - cbn [paths] in Hq. apply in_flat_map in Hq as [r [Hr Hq]]. apply in_map_iff in Hq as [l2 [<- Hl]]. destruct (paths_nonempty n r Hr) as [NE B]. destruct r as [|l1 r]; [contradiction|]. cbn [hd] in *.
    rewrite irreps_step. set (q := l1 :: r) in *.
    rewrite (rsum_ext 3 _ (fun o => rsum (2 * l1 + 1) (fun k => fixed c X o q k * c (l1 * l1 + k)%nat (1 + o)%nat (l2 * l2 + p)%nat))).
    2:{ intros o Ho. apply rsum_ext. intros k Hk. f_equal. rewrite <- (IH (fixed c X o) q k ltac:(lia) Hr Hk). apply (irreps_ext c n); [exact Hr|exact Hk|]. intros index _. apply tensor_S. }
    rewrite rsum_swap. unfold fixed. cbn [hd q].
    rewrite (rsum_ext (2 * l1 + 1) _ (fun k => rsum 3 (fun o => lsum (fun l3 => rsum (2 * l3 + 1) (fun p' => X (l3 :: q) p' * (c (l1 * l1 + k)%nat (1 + o)%nat (l3 * l3 + p')%nat * c (l1 * l1 + k)%nat (1 + o)%nat (l2 * l2 + p)%nat))) (next_degrees l1)))).
    2:{ intros k _. apply rsum_ext. intros o _. rewrite <- lsum_scal_r. apply lsum_ext. intros l3 _. rewrite <- rsum_scal_r. apply rsum_ext. intros; ring. }
    rewrite (rsum_ext (2 * l1 + 1) _ (fun k => lsum (fun l3 => rsum 3 (fun o => rsum (2 * l3 + 1) (fun p' => X (l3 :: q) p' * (c (l1 * l1 + k)%nat (1 + o)%nat (l3 * l3 + p')%nat * c (l1 * l1 + k)%nat (1 + o)%nat (l2 * l2 + p)%nat)))) (next_degrees l1))) by (intros; symmetry; apply lsum_rsum).
    rewrite <- lsum_rsum.
    rewrite (lsum_ext _ _ (fun l3 => rsum (2 * l3 + 1) (fun p' => X (l3 :: q) p' * (if (l3 * l3 + p' =? l2 * l2 + p)%nat then 1 else 0)))).
    2:{ intros l3 H3. rewrite (rsum_ext (2 * l1 + 1) _ (fun k => rsum (2 * l3 + 1) (fun p' => rsum 3 (fun o => X (l3 :: q) p' * (c (l1 * l1 + k)%nat (1 + o)%nat (l3 * l3 + p')%nat * c (l1 * l1 + k)%nat (1 + o)%nat (l2 * l2 + p)%nat))))) by (intros; apply rsum_swap).
        rewrite rsum_swap. apply rsum_ext. intros p' Hp'. rewrite (rsum_ext (2 * l1 + 1) _ (fun k => X (l3 :: q) p' * rsum 3 (fun o => c (l1 * l1 + k)%nat (1 + o)%nat (l3 * l3 + p')%nat * c (l1 * l1 + k)%nat (1 + o)%nat (l2 * l2 + p)%nat))) by (intros; apply rsum_scal_l).
        rewrite rsum_scal_l. f_equal. apply orthonormal; [lia|assumption..]. }
    pose proof (proj1 (next_triangle l1 l2) Hl) as T2. unfold next_degrees. rewrite (lsum_single _ _ _ l2).
    + rewrite (rsum_single _ _ p Hp); [rewrite Nat.eqb_refl; ring|]. intros p' _ N. destruct (Nat.eqb_spec (l2 * l2 + p') (l2 * l2 + p)); [lia|ring].
    + lia.
    + apply andb_true_iff. rewrite !Nat.leb_le. lia.
    + intros l3 N _. apply rsum_zero. intros p' Hp'. destruct (Nat.eqb_spec (l3 * l3 + p') (l2 * l2 + p)) as [E|]; [|ring]. exfalso. apply N. destruct (Nat.lt_trichotomy l3 l2) as [|[|]]; [|assumption|]; nia.
Qed.

(** * Rotations *)
Variables (m : mat) (D : nat -> nat -> R).
Hypothesis proper : proper_rotation m.
Hypothesis matrices : wigner_matrix true m D.
Lemma degree_one : forall j k, (j < 3)%nat -> (k < 3)%nat -> D (1 + j)%nat (1 + k)%nat = entry m j k.
Proof using matrices proper.
  intros j k Hj Hk. destruct (matrices 1%Z ltac:(lia)) as [ms [a [ds [Em [Hd V]]]]]. rewrite V by (cbn; lia). exact (C25_degree_one _ _ _ a m j k Hd Em (rotation_orthogonal _ proper) ltac:(lia) Hj Hk).
Qed.
Lemma backwards : forall l1 l k o q, (l1 < degrees L1)%nat -> (l < degrees L3)%nat -> (k < 2 * l1 + 1)%nat -> (o < 3)%nat -> (q < 2 * l + 1)%nat ->
  rsum (2 * l + 1) (fun p => D (l * l + q)%nat (l * l + p)%nat * c (l1 * l1 + k)%nat (1 + o)%nat (l * l + p)%nat)
  = rsum (2 * l1 + 1) (fun a => rsum 3 (fun b => D (l1 * l1 + a)%nat (l1 * l1 + k)%nat * entry m b o * c (l1 * l1 + a)%nat (1 + b)%nat (l * l + q)%nat)).
Proof using package coefficients enough proper matrices.
  intros l1 l k o q Hl1 Hl Hk Ho Hq. pose proof (constant_rotations true m D proper matrices) as RR. destruct (C67_matrices _ _ _ RR) as [_ [_ KO]]. pose proof (C67_commutes _ _ _ _ package RR _ _ _ _ [] coefficients) as HC. cbn beta in HC.
  assert (N1 : (l1 < Z.to_nat (L1 + 1))%nat) by (unfold degrees in *; lia). assert (N3 : (l < Z.to_nat (L3 + 1))%nat) by (unfold degrees in *; lia).
  assert (S1 : forall a b, (a < 2 * l1 + 1)%nat -> (b < 3)%nat -> c (l1 * l1 + a)%nat (1 + b)%nat (l * l + q)%nat
    = rsum (2 * l + 1) (fun p => D (l * l + q)%nat (l * l + p)%nat * rsum (2 * l1 + 1) (fun i' => rsum 3 (fun j' => D (l1 * l1 + a)%nat (l1 * l1 + i')%nat * D (1 + b)%nat (1 + j')%nat * c (l1 * l1 + i')%nat (1 + j')%nat (l * l + p)%nat)))).
  { intros a b Ha Hb. transitivity (rsum (2 * l + 1) (fun p => D (l * l + q)%nat (l * l + p)%nat * rsum (2 * l + 1) (fun p' => c (l1 * l1 + a)%nat (1 + b)%nat (l * l + p')%nat * D (l * l + p')%nat (l * l + p)%nat))).
    - rewrite (rsum_ext _ _ (fun p => rsum (2 * l + 1) (fun p' => c (l1 * l1 + a)%nat (1 + b)%nat (l * l + p')%nat * (D (l * l + q)%nat (l * l + p)%nat * D (l * l + p')%nat (l * l + p)%nat)))) by (intros p Hp; rewrite <- rsum_scal_l; apply rsum_ext; intros; ring).
      rewrite rsum_swap. rewrite (rsum_single _ _ q Hq).
      + rewrite rsum_scal_l. destruct (KO [] l q q Hq Hq) as [-> _]. rewrite Nat.eqb_refl. ring.
      + intros p' Hp' N. rewrite rsum_scal_l. destruct (KO [] l q p' Hq Hp') as [-> _]. destruct (Nat.eqb_spec q p'); [congruence|ring].
    - apply rsum_ext. intros p Hp. f_equal. symmetry. exact (HC l1 1%nat l a b p N1 ltac:(cbn; lia) N3 Ha Hb Hp). }
  rewrite (rsum_ext (2 * l1 + 1) _ (fun a => rsum 3 (fun b => rsum (2 * l + 1) (fun p => D (l * l + q)%nat (l * l + p)%nat * (D (l1 * l1 + a)%nat (l1 * l1 + k)%nat * D (1 + b)%nat (1 + o)%nat * rsum (2 * l1 + 1) (fun i' => rsum 3 (fun j' => D (l1 * l1 + a)%nat (l1 * l1 + i')%nat * D (1 + b)%nat (1 + j')%nat * c (l1 * l1 + i')%nat (1 + j')%nat (l * l + p)%nat))))))).
  2:{ intros a Ha. apply rsum_ext. intros b Hb. rewrite (S1 a b Ha Hb), <- degree_one, <- rsum_scal_l by assumption. apply rsum_ext. intros; ring. }
  rewrite (rsum_ext (2 * l1 + 1) _ (fun a => rsum (2 * l + 1) (fun p => rsum 3 (fun b => D (l * l + q)%nat (l * l + p)%nat * (D (l1 * l1 + a)%nat (l1 * l1 + k)%nat * D (1 + b)%nat (1 + o)%nat * rsum (2 * l1 + 1) (fun i' => rsum 3 (fun j' => D (l1 * l1 + a)%nat (l1 * l1 + i')%nat * D (1 + b)%nat (1 + j')%nat * c (l1 * l1 + i')%nat (1 + j')%nat (l * l + p)%nat))))))) by (intros; apply rsum_swap).
  symmetry. rewrite rsum_swap. apply rsum_ext. intros p Hp.
  rewrite (rsum_ext (2 * l1 + 1) _ (fun a => D (l * l + q)%nat (l * l + p)%nat * rsum 3 (fun b => D (l1 * l1 + a)%nat (l1 * l1 + k)%nat * D (1 + b)%nat (1 + o)%nat * rsum (2 * l1 + 1) (fun i' => rsum 3 (fun j' => D (l1 * l1 + a)%nat (l1 * l1 + i')%nat * D (1 + b)%nat (1 + j')%nat * c (l1 * l1 + i')%nat (1 + j')%nat (l * l + p)%nat))))) by (intros; apply rsum_scal_l).
  rewrite rsum_scal_l. f_equal.
  apply (sandwich (2 * l1 + 1) 3 (fun a b => D (l1 * l1 + a)%nat (l1 * l1 + b)%nat) (fun a b => D (1 + a)%nat (1 + b)%nat) (fun i' j' => c (l1 * l1 + i')%nat (1 + j')%nat (l * l + p)%nat) k o Hk Ho).
  - intros a b Ha Hb. exact (proj2 (KO [] l1 a b Ha Hb)).
  - intros a b Ha Hb. exact (proj2 (KO [] 1%nat a b Ha Hb)).
Qed.

Lemma turned_rule : forall n X X' index, (n < degrees L1)%nat -> is_index (S n) index ->
  (forall q p, In q (paths n) -> (p < 2 * hd 1%nat q + 1)%nat -> X' q p = rsum (2 * hd 1%nat q + 1) (fun p' => X q p' * D (hd 1%nat q * hd 1%nat q + p')%nat (hd 1%nat q * hd 1%nat q + p)%nat)) ->
  tensor_of c n X' index = turned_tensor (entry m) (tensor_of c n X) index.
Proof using package coefficients enough proper matrices.
  induction n as [|n IH]; intros X X' index HN HI H.
  - destruct (index_0 index HI) as [i [-> Hi]]. unfold tensor_of at 1. cbn [paths fold_right contribution turned_tensor]. rewrite (H [1%nat] i) by (now left || (cbn; lia)). cbn [hd]. change (2 * 1 + 1)%nat with 3%nat. rewrite Rplus_0_r. apply rsum_ext. intros a Ha.
    unfold tensor_of. cbn [paths fold_right contribution]. change (1 * 1)%nat with 1%nat. rewrite degree_one by assumption. ring.
  - destruct (index_S _ _ HI) as [o [r [-> [Ho Hr]]]]. rewrite tensor_S. cbn [turned_tensor].
    rewrite (rsum_ext 3 _ (fun d => entry m d o * tensor_of c n (fun q k => rsum (2 * hd 1%nat q + 1) (fun k' => fixed c X d q k' * D (hd 1%nat q * hd 1%nat q + k')%nat (hd 1%nat q * hd 1%nat q + k)%nat)) r)).
    2:{ intros d Hd. f_equal. symmetry. rewrite (IH (fixed c X d) _ r ltac:(lia) Hr) by reflexivity. f_equal. apply FunctionalExtensionality.functional_extensionality. intros index. symmetry. apply tensor_S. }
    rewrite <- tensor_linear by exact Hr. apply tensor_ext; [exact Hr|]. intros q k Hq Hk. destruct (paths_nonempty n q Hq) as [NE B]. set (l1 := hd 1%nat q) in *. unfold fixed. fold l1.
    rewrite (rsum_ext 3 _ (fun d => lsum (fun l2 => rsum (2 * l1 + 1) (fun k' => rsum (2 * l2 + 1) (fun p => X (l2 :: q) p * (D (l1 * l1 + k')%nat (l1 * l1 + k)%nat * entry m d o * c (l1 * l1 + k')%nat (1 + d)%nat (l2 * l2 + p)%nat)))) (next_degrees l1))).
    2:{ intros d _. rewrite <- rsum_scal_l. rewrite lsum_rsum. apply rsum_ext. intros k' _. rewrite <- lsum_scal_r, <- lsum_scal_l. apply lsum_ext. intros l2 _. rewrite <- rsum_scal_r, <- rsum_scal_l. apply rsum_ext. intros; ring. }
    rewrite <- lsum_rsum. apply lsum_ext. intros l2 Hl2. pose proof (proj1 (next_triangle l1 l2) Hl2) as T2.
    transitivity (rsum (2 * l2 + 1) (fun p' => X (l2 :: q) p' * rsum (2 * l2 + 1) (fun p => D (l2 * l2 + p')%nat (l2 * l2 + p)%nat * c (l1 * l1 + k)%nat (1 + o)%nat (l2 * l2 + p)%nat))).
    + rewrite (rsum_ext (2 * l2 + 1) _ (fun p => rsum (2 * l2 + 1) (fun p' => X (l2 :: q) p' * (D (l2 * l2 + p')%nat (l2 * l2 + p)%nat * c (l1 * l1 + k)%nat (1 + o)%nat (l2 * l2 + p)%nat)))).
      * rewrite rsum_swap. apply rsum_ext. intros p' _. apply rsum_scal_l.
      * intros p Hp. rewrite (H (l2 :: q) p) by (assumption || now apply paths_step). cbn [hd]. rewrite <- rsum_scal_r. apply rsum_ext. intros; ring.
    + rewrite (rsum_ext (2 * l2 + 1) _ (fun p' => rsum 3 (fun d => rsum (2 * l1 + 1) (fun k' => X (l2 :: q) p' * (D (l1 * l1 + k')%nat (l1 * l1 + k)%nat * entry m d o * c (l1 * l1 + k')%nat (1 + d)%nat (l2 * l2 + p')%nat))))).
      * rewrite rsum_swap. apply rsum_ext. intros d _. apply rsum_swap.
      * intros p' Hp'. rewrite backwards by (assumption || (unfold degrees in *; lia)). rewrite rsum_swap, <- rsum_scal_l. apply rsum_ext. intros d _. now rewrite <- rsum_scal_l.
Qed.
End Coupled.

(** * Theorems *)
(** Every tensor of degree n + 1 is the sum over the coupling paths for the irreps that the couplings of its indices have ... *)
Theorem C99_every_tensor : forall cgf L1 L3 c n T index, uses_package true cgf -> cgf L1 1%Z L3 = Ok c -> (0 <= L1 < L3)%Z -> (n < degrees L1)%nat -> is_index (S n) index ->
  tensor_of c n (irreps_of c T) index = T index.
Proof. intros cgf L1 L3 c n T index HP EC HL HN HI. exact (all_tensors cgf L1 L3 c HP EC HL n T index HN HI). Qed.
Print Assumptions C99_every_tensor.

(** ... and of no other irreps: they can be read off the tensor. *)
Theorem C99_irreps_of_tensor : forall cgf L1 L3 c n X path p, uses_package true cgf -> cgf L1 1%Z L3 = Ok c -> (0 <= L1 < L3)%Z -> (n < degrees L1)%nat ->
  In path (paths n) -> (p < 2 * hd 1%nat path + 1)%nat -> irreps_of c (tensor_of c n X) path p = X path p.
Proof. intros cgf L1 L3 c n X q p HP EC HL HN Hq Hp. exact (irreps_back cgf L1 L3 c HP EC HL n X q p HN Hq Hp). Qed.
Print Assumptions C99_irreps_of_tensor.

Lemma turned_scale : forall s E index T, turned_tensor (fun a i => s * E a i) T index = s ^ length index * turned_tensor E T index.
Proof.
  intros s E index. induction index as [|i r IH]; intros T; cbn [turned_tensor length pow]; [ring|]. rewrite <- rsum_scal_l. apply rsum_ext. intros a _. rewrite IH. ring.
Qed.
Lemma power_parity : forall s n, s = 1 \/ s = -1 -> s ^ n = parity_sign s (n mod 2).
Proof.
  intros s n Hs. assert (S2 : s * s = 1) by (destruct Hs as [-> | ->]; ring). rewrite (Nat.div_mod_eq n 2) at 1. rewrite pow_add, pow_mult. cbn [pow]. rewrite Rmult_1_r, S2, pow1.
  pose proof (Nat.mod_upper_bound n 2 ltac:(lia)) as B. destruct (n mod 2)%nat as [|[|k]]; [| |lia]; unfold parity_sign; cbn; ring.
Qed.

(** If the features are those of rotated (and, for s = -1, inverted) inputs, then the tensor, built from irreps of even parity for even
    degrees and odd parity for odd degrees, of any feature channels, is rotated in every index (and inverted). *)
Theorem C99_turns : forall cgf L1 L3 c n s m D z z' b channel index, uses_package true cgf -> cgf L1 1%Z L3 = Ok c -> (0 <= L1 < L3)%Z -> (n < degrees L1)%nat -> is_index (S n) index ->
  proper_rotation m -> wigner_matrix true m D -> s = 1 \/ s = -1 -> transformed s (fun _ => D) z z' ->
  tensor_of c n (fun path k => comp z' b (S n mod 2) (hd 1%nat path) k (channel path)) index
  = turned_tensor (fun a i => s * entry m a i) (tensor_of c n (fun path k => comp z b (S n mod 2) (hd 1%nat path) k (channel path))) index.
Proof.
  intros cgf L1 L3 c n s m D z z' b ch index HP EC HL HN HI Hm HD Hs [_ [_ [_ [_ [_ TC]]]]]. set (par := (S n mod 2)%nat). assert (Hp : (par < 2)%nat) by (apply Nat.mod_upper_bound; lia).
  set (X := fun path k => comp z b par (hd 1%nat path) k (ch path)). set (Y := fun path k => rsum (2 * hd 1%nat path + 1) (fun k' => X path k' * D (hd 1%nat path * hd 1%nat path + k')%nat (hd 1%nat path * hd 1%nat path + k)%nat)).
  rewrite turned_scale, power_parity by exact Hs. rewrite (proj1 HI). fold par.
  rewrite <- (turned_rule cgf L1 L3 c HP EC HL m D Hm HD n X Y index HN HI) by reflexivity.
  transitivity (tensor_of c n (fun q k => rsum 1 (fun _ => parity_sign s par * Y q k)) index).
  - apply tensor_ext; [exact HI|]. intros q k Hq Hk. rewrite TC by assumption. cbn [rsum]. rewrite Rplus_0_l. reflexivity.
  - rewrite (tensor_linear c n 1 (fun _ => parity_sign s par) (fun _ => Y) index HI). cbn [rsum]. ring.
Qed.
Print Assumptions C99_turns.

(** The recipes for degrees 2 and 3 in the documentation are these for n = 1 and n = 2. *)
Theorem C99_degree_two : forall c x i j, general_matrix c x i j = tensor_of c 1 (fun path => x (hd 1%nat path)) [j; i].
Proof.
  intros c x i j. unfold general_matrix, tensor_of, matrix_part. change (paths 1) with [[0; 1]; [1; 1]; [2; 1]]%nat. cbn [fold_right]. rewrite !contribution_step. cbn [contribution hd]. change (1 * 1)%nat with 1%nat. ring.
Qed.
Print Assumptions C99_degree_two.
Theorem C99_degree_three : forall c x i j o, general_tensor c x i j o = tensor_of c 2 (fun path => x (nth 1 path 1%nat, nth 0 path 1%nat)) [o; j; i].
Proof.
  intros c x i j o.
  assert (P : forall l1 l2, path_part c (l1, l2) (x (l1, l2)) i j o = contribution c [l2; l1; 1%nat] (x (l1, l2)) [o; j; i]).
  { intros l1 l2. rewrite !contribution_step. cbn [contribution path_part]. change (1 * 1)%nat with 1%nat. rewrite rsum_swap. apply rsum_ext. intros n _. rewrite <- rsum_scal_r. apply rsum_ext. intros; ring. }
  unfold general_tensor, coupling_paths, tensor_of. cbn [fold_right]. rewrite !P. change (paths 2) with [[1; 0; 1]; [0; 1; 1]; [1; 1; 1]; [2; 1; 1]; [1; 2; 1]; [2; 2; 1]; [3; 2; 1]]%nat. cbn [fold_right nth]. ring.
Qed.
Print Assumptions C99_degree_three.

(** Irreps of degree 0 contribute the trace, those of degree 1 the antisymmetric part, those of degree 2 the symmetric part without trace. *)
Theorem C99_parts : forall cgf L1 L3 c x, uses_package true cgf -> cgf L1 1%Z L3 = Ok c -> (1 <= L1)%Z -> (2 <= L3)%Z ->
  (forall i j, (i < 3)%nat -> (j < 3)%nat -> matrix_part c 0 x i j = if (i =? j)%nat then x 0%nat / sqrt 3 else 0)
  /\ (forall i j, (i < 3)%nat -> (j < 3)%nat -> matrix_part c 1 x j i = - matrix_part c 1 x i j)
  /\ (forall i j, (i < 3)%nat -> (j < 3)%nat -> matrix_part c 2 x j i = matrix_part c 2 x i j)
  /\ rsum 3 (fun i => matrix_part c 2 x i i) = 0.
Proof.
  intros cgf L1 L3 c x HP EC H1 H3. destruct (package_array _ _ _ _ _ _ HP EC) as [C [HC ->]].
  assert (B1 : (1 < degrees L1)%nat) by (unfold degrees; lia). assert (B2 : (1 < degrees 1)%nat) by (cbn; lia). assert (B3 : (2 < degrees L3)%nat) by (unfold degrees; lia).
  assert (S0 : forall i j, (i < 3)%nat -> (j < 3)%nat -> at3 0 C (1 + i) (1 + j) 0 = (if (i =? j)%nat then 1 else 0) / sqrt 3).
  { intros i j Hi Hj. pose proof (C66_scalar_product L1 1 L3 true C 1 i j HC B1 B2 Hi Hj) as Q. change (1 * 1)%nat with 1%nat in Q. rewrite Q. change (2 * 1 + 1)%nat with 3%nat. cbn [INR]. do 2 f_equal. ring. }
  assert (X : forall l i j k, (l < 3)%nat -> (i < 3)%nat -> (j < 3)%nat -> (k < 2 * l + 1)%nat -> at3 0 C (1 + j) (1 + i) (l * l + k) = (-1) ^ (1 + 1 + l) * at3 0 C (1 + i) (1 + j) (l * l + k)).
  { intros l i j k Hl Hi Hj Hk. destruct (HP 1%Z 1%Z L3) as [empty [w [s [o [Hw [Ho Q]]]]]].
    destruct (C59_entries R 0 rzero real_clebsch_gordan empty w s o 1 1 L3 true rzero_test Hw Ho ltac:(lia) ltac:(lia) ltac:(lia)) as [C' [E _]].
    assert (HC' : cg_array 1 1 L3 true C') by (exists empty, w, s, o; auto).
    pose proof (C66_exchange L1 1 L3 1 1 L3 true C C' 1 1 l i j k HC HC' B1 B2 ltac:(lia) B2 B2 ltac:(lia) Hi Hj Hk) as Q1.
    pose proof (C66_exchange 1 1 L3 1 L1 L3 true C' C 1 1 l i j k HC' HC B2 B2 ltac:(lia) B2 B1 ltac:(lia) Hi Hj Hk) as Q2.
    pose proof (C66_exchange 1 1 L3 1 1 L3 true C' C' 1 1 l i j k HC' HC' B2 B2 ltac:(lia) B2 B2 ltac:(lia) Hi Hj Hk) as Q3.
    change (1 * 1)%nat with 1%nat in *. rewrite Q2, <- Q1, Q1. rewrite Q1 in Q3. 
    assert (NZ : (-1) ^ (1 + 1 + l) <> 0) by (apply pow_nonzero; lra). apply Rmult_eq_reg_l in Q3; [|exact NZ]. now rewrite Q3. }
  split; [|split; [|split]].
  - intros i j Hi Hj. unfold matrix_part. change (2 * 0 + 1)%nat with 1%nat. cbn [rsum]. change (0 * 0 + 0)%nat with 0%nat. rewrite S0 by assumption. destruct (i =? j)%nat; field; apply Rgt_not_eq, sqrt_lt_R0; lra.
  - intros i j Hi Hj. unfold matrix_part. rewrite <- rsum_opp. apply rsum_ext. intros k Hk. rewrite (X 1%nat i j k) by (lia || assumption). change (1 + 1 + 1)%nat with 3%nat. ring.
  - intros i j Hi Hj. unfold matrix_part. apply rsum_ext. intros k Hk. rewrite (X 2%nat i j k) by (lia || assumption). change (1 + 1 + 2)%nat with 4%nat. ring.
  - unfold matrix_part. rewrite rsum_swap. apply rsum_zero. intros k Hk. rewrite rsum_scal_l.
    pose proof (C66_orthonormal L1 1 L3 true C 1 1 0 2 0 k HC B1 B2 ltac:(lia) B3 ltac:(lia) ltac:(lia) ltac:(lia) Hk) as Q. change (1 * 1)%nat with 1%nat in Q. change (2 * 1 + 1)%nat with 3%nat in Q. change (0 * 0 + 0)%nat with 0%nat in Q.
    destruct (Nat.eqb_spec 0 (2 * 2 + k)); [lia|].
    rewrite (rsum_ext 3 _ (fun i => / sqrt 3 * at3 0 C (1 + i) (1 + i) (2 * 2 + k))) in Q.
    + rewrite rsum_scal_l in Q. apply Rmult_integral in Q as [Q|Q]; [|rewrite Q; ring]. exfalso. revert Q. apply Rinv_neq_0_compat, Rgt_not_eq, sqrt_lt_R0. lra.
    + intros i Hi. rewrite (rsum_single 3 _ i Hi).
      * rewrite S0, Nat.eqb_refl by assumption. unfold Rdiv. ring.
      * intros j Hj N. rewrite S0 by assumption. destruct (Nat.eqb_spec i j); [congruence|]. unfold Rdiv. ring.
Qed.
Print Assumptions C99_parts.

(** The array of the documentation for tensors of degree 3 exists; the seven coupling paths; an index. *)
Example C99_case : uses_package true (package_cg true) /\ (exists c, package_cg true 2 1 3 = Ok c) /\ (2 < degrees 2)%nat /\ is_index 3 [0; 1; 2]%nat
  /\ paths 2 = [[1; 0; 1]; [0; 1; 1]; [1; 1; 1]; [2; 1; 1]; [1; 2; 1]; [2; 2; 1]; [3; 2; 1]]%nat
  /\ fold_right (fun path t => (2 * hd 1%nat path + 1 + t)%nat) 0%nat (paths 2) = 27%nat
  /\ proper_rotation quarter_turn /\ wigner_matrix true quarter_turn (wigner_entries true quarter_turn)
  /\ transformed 1 (fun _ => wigner_entries true quarter_turn) (mkFeat [] 2 16 1 0 (fun _ _ d _ => if (d =? 0)%nat then 2 else 0)) (mkFeat [] 2 16 1 0 (fun _ _ d _ => if (d =? 0)%nat then 2 else 0)).
Proof.
  split; [apply package_cg_uses|]. split.
  { unfold package_cg. destruct (C59_entries R 0 rzero real_clebsch_gordan 0 empty_world None IoOk 2 1 3 true rzero_test (cg_ready_empty _ _ _ _) call_ok_serial ltac:(lia) ltac:(lia) ltac:(lia)) as [c [E _]]. rewrite E. eexists. reflexivity. }
  split; [cbn; lia|]. split; [split; [reflexivity|repeat constructor; lia]|]. split; [reflexivity|]. split; [reflexivity|]. split; [exact quarter_turn_rotation|]. split; [apply wigner_entries_matrix|].
  do 5 (split; [reflexivity|]). intros i p l k f Hp Hk. pose proof (wigner_entries_matrix true quarter_turn) as HD. destruct (C67_matrices _ _ _ (constant_rotations true quarter_turn _ quarter_turn_rotation HD)) as [K0 _]. pose proof (K0 []) as K. cbn beta in K.
  unfold comp. cbn [fD fS fv Nat.eqb]. replace (parity_sign 1 p) with 1 by (unfold parity_sign; now destruct (p =? 1)%nat). destruct (Nat.leb_spec ((l + 1) * (l + 1)) 16) as [H|H]; [|rewrite rsum_zero by (intros; ring); ring].
  destruct l as [|l].
  - replace k with 0%nat by lia. change (2 * 0 + 1)%nat with 1%nat. cbn [rsum]. change (0 * 0 + 0)%nat with 0%nat. rewrite K. cbn. ring.
  - rewrite rsum_zero by (intros k' _; destruct (Nat.eqb_spec (S l * S l + k') 0); [lia|ring]). destruct (Nat.eqb_spec (S l * S l + k) 0); [lia|ring].
Qed.
