(** Proofs about Tensor and FusedTensor: every code path computes the same weighted sum of
    couplings, and such sums are equivariant. *)
Require Import List Reals ZArith Bool Lia Lra.
Require Import ZifyNat.
Require Import Verif.Base Verif.RSum Verif.Features_Model Verif.Features_Spec Verif.Features_Proofs
  Verif.Modules_Model Verif.Modules_Spec Verif.Modules_Proofs.
Import ListNotations.
Open Scope R_scope.
Arguments Nat.modulo : simpl never.
Arguments Nat.mul : simpl never.
Ltac Zify.zify_post_hook ::= Z.div_mod_to_equations.

(** * The parity mask *)

(** Parity of the entry at parity index p and degree l. *)
Definition par (S p l : nat) : nat := if (S =? 2)%nat then p else (l mod 2)%nat.

Lemma in_combinations : forall S m p l d, (S = 1 \/ S = 2)%nat ->
  In (p, l, d) (make_index_combinations S m) <-> (p < S)%nat /\ (l < m + 1)%nat /\ d = par S p l.
Proof.
  intros S m p l d HS. unfold make_index_combinations, par. destruct HS as [-> | ->]; cbn [Nat.eqb].
  - rewrite in_map_iff. split.
    + intros [x [E Hx]]. injection E as <- <- <-. apply in_seq in Hx. repeat split; lia.
    + intros [Hp [Hl ->]]. exists l. split; [f_equal; f_equal; lia|apply in_seq; lia].
  - rewrite in_app_iff, !in_map_iff. split.
    + intros [[x [E Hx]]|[x [E Hx]]]; injection E as <- <- <-; apply in_seq in Hx; repeat split; lia.
    + intros [Hp [Hl ->]]. destruct p as [|[|p]]; [left|right|lia]; exists l; (split; [reflexivity|apply in_seq; lia]).
Qed.

Definition violates (t : (nat * nat * nat) * ((nat * nat * nat) * (nat * nat * nat))) : bool :=
  let '((_, _, d1), ((_, _, d2), (_, _, d3))) := t in negb ((d1 + d2) mod 2 =? d3)%nat.

Definition hits (a b c d e f : nat) (t : (nat * nat * nat) * ((nat * nat * nat) * (nat * nat * nat))) : bool :=
  let '((p1, l1, _), ((p2, l2, _), (p3, l3, _))) := t in
  (a =? p1)%nat && (b =? l1)%nat && (c =? p2)%nat && (d =? l2)%nat && (e =? p3)%nat && (f =? l3)%nat.

Lemma set_zero_value : forall S1 n1 S2 n2 S3 n3 t mask a b c d e f,
  (a < S1)%nat -> (b < n1)%nat -> (c < S2)%nat -> (d < n2)%nat -> (e < S3)%nat -> (f < n3)%nat ->
  set_zero S1 n1 S2 n2 S3 n3 t mask a b c d e f = if hits a b c d e f t then 0 else mask a b c d e f.
Proof.
  intros S1 n1 S2 n2 S3 n3 [[[p1 l1] d1] [[[p2 l2] d2] [[p3 l3] d3]]] mask a b c d e f Ha Hb Hc Hd He Hf.
  unfold set_zero, hits.
  destruct ((a =? p1)%nat && (b =? l1)%nat && (c =? p2)%nat && (d =? l2)%nat && (e =? p3)%nat && (f =? l3)%nat) eqn:E.
  - repeat rewrite andb_true_iff in E. rewrite !Nat.eqb_eq in E. destruct E as [[[[[-> ->] ->] ->] ->] ->].
    repeat match goal with H : (?x < ?y)%nat |- _ => rewrite (proj2 (Nat.ltb_lt x y) H); clear H end. cbn [andb]. rewrite !Nat.eqb_refl. reflexivity.
  - destruct ((p1 <? S1)%nat && (l1 <? n1)%nat && (p2 <? S2)%nat && (l2 <? n2)%nat && (p3 <? S3)%nat && (l3 <? n3)%nat);
      [rewrite E; reflexivity|reflexivity].
Qed.

Lemma mask_fold : forall S1 n1 S2 n2 S3 n3 ts mask a b c d e f,
  (a < S1)%nat -> (b < n1)%nat -> (c < S2)%nat -> (d < n2)%nat -> (e < S3)%nat -> (f < n3)%nat ->
  fold_left (fun mask t =>
      let '((_, _, d1), ((_, _, d2), (_, _, d3))) := t in
      if negb ((d1 + d2) mod 2 =? d3)%nat then set_zero S1 n1 S2 n2 S3 n3 t mask else mask) ts mask a b c d e f
  = if existsb (fun t => violates t && hits a b c d e f t) ts then 0 else mask a b c d e f.
Proof.
  intros S1 n1 S2 n2 S3 n3 ts; induction ts as [|t ts IH]; intros mask a b c d e f Ha Hb Hc Hd He Hf; [reflexivity|].
  cbn [fold_left existsb]. rewrite IH by assumption.
  replace ((let '((_, _, d1), ((_, _, d2), (_, _, d3))) := t in
      if negb ((d1 + d2) mod 2 =? d3)%nat then set_zero S1 n1 S2 n2 S3 n3 t mask else mask) a b c d e f)
    with (if violates t then set_zero S1 n1 S2 n2 S3 n3 t mask a b c d e f else mask a b c d e f).
  2: { destruct t as [[[p1 l1] d1] [[[p2 l2] d2] [[p3 l3] d3]]]. unfold violates. destruct (negb _); reflexivity. }
  rewrite set_zero_value by assumption.
  destruct (existsb _ ts); [rewrite orb_true_r; reflexivity|]. rewrite orb_false_r.
  destruct (violates t); [|reflexivity]. cbn [andb]. reflexivity.
Qed.

Lemma mask_value : forall S1 n1 S2 n2 S3 n3 a b c d e f,
  (S1 = 1 \/ S1 = 2)%nat -> (S2 = 1 \/ S2 = 2)%nat -> (S3 = 1 \/ S3 = 2)%nat ->
  (a < S1)%nat -> (b < n1)%nat -> (c < S2)%nat -> (d < n2)%nat -> (e < S3)%nat -> (f < n3)%nat ->
  make_tensor_product_mask S1 n1 S2 n2 S3 n3 a b c d e f
  = if ((par S1 a b + par S2 c d) mod 2 =? par S3 e f)%nat then 1 else 0.
Proof.
  intros S1 n1 S2 n2 S3 n3 a b c d e f H1 H2 H3 Ha Hb Hc Hd He Hf.
  unfold make_tensor_product_mask. rewrite mask_fold by assumption.
  destruct (existsb _ _) eqn:E.
  - apply existsb_exists in E. destruct E as [[[[p1 l1] d1] [[[p2 l2] d2] [[p3 l3] d3]]] [Hin E]].
    apply in_prod_iff in Hin. destruct Hin as [I1 Hin]. apply in_prod_iff in Hin. destruct Hin as [I2 I3].
    apply in_combinations in I1, I2, I3; try assumption.
    destruct I1 as [_ [_ ->]], I2 as [_ [_ ->]], I3 as [_ [_ ->]].
    apply andb_true_iff in E. destruct E as [E1 E2]. unfold violates in E1. unfold hits in E2.
    repeat rewrite andb_true_iff in E2. rewrite !Nat.eqb_eq in E2. destruct E2 as [[[[[-> ->] ->] ->] ->] ->].
    destruct (_ =? _)%nat; [discriminate|reflexivity].
  - destruct (Nat.eqb_spec ((par S1 a b + par S2 c d) mod 2) (par S3 e f)) as [E'|E']; [reflexivity|].
    exfalso. rewrite <- not_true_iff_false in E. apply E. apply existsb_exists.
    exists ((a, b, par S1 a b), ((c, d, par S2 c d), (e, f, par S3 e f))). split.
    + apply in_prod_iff. split; [|apply in_prod_iff; split]; apply in_combinations; auto; repeat split; auto; lia.
    + unfold violates, hits. rewrite !Nat.eqb_refl. destruct (Nat.eqb_spec ((par S1 a b + par S2 c d) mod 2) (par S3 e f)); [contradiction|reflexivity].
Qed.

(** * Sums over arrays and over components *)

Lemma rsum2 : forall f, rsum 2 f = f 0%nat + f 1%nat.
Proof. intros. simpl. ring. Qed.
Lemma rsum1 : forall f, rsum 1 f = f 0%nat.
Proof. intros. simpl. ring. Qed.

(** Sum over an array = sum over its components; h may use the parity. *)
Lemma array_sum : forall n x i f (h : nat -> nat -> nat -> R), valid n x ->
  rsum (fS x) (fun p => rsum (fD x) (fun d => fv x i p d f * h p d (par (fS x) p (Nat.sqrt d))))
  = rsum 2 (fun p => rsum n (fun l => rsum (2 * l + 1) (fun k =>
      comp x i p l k f * h (channel (fS x) p) (l * l + k)%nat p))).
Proof.
  intros n x i f h Hx.
  assert (Hsq : forall l k, (k < 2 * l + 1)%nat -> Nat.sqrt (l * l + k) = l) by (intros l k Hk; apply Nat.sqrt_unique; lia).
  pose proof Hx as [HS HD]. destruct HS as [HS|HS].
  - rewrite HS, rsum1, HD, rsum_degrees, rsum2, <- rsum_plus. apply rsum_ext. intros l Hl.
    rewrite <- rsum_plus. apply rsum_ext. intros k Hk. rewrite Hsq by assumption.
    rewrite !(comp_valid n x) by assumption. rewrite HS. unfold par, channel. cbn [Nat.eqb].
    destruct (Nat.ltb_spec l n); [|lia].
    destruct (l mod 2)%nat as [|[|q]] eqn:E; cbn [Nat.eqb]; [ring|ring|].
    pose proof (Nat.mod_upper_bound l 2); lia.
  - rewrite HS, HD. apply rsum_ext. intros p Hp. rewrite rsum_degrees. apply rsum_ext. intros l Hl.
    apply rsum_ext. intros k Hk. rewrite Hsq by assumption.
    rewrite (comp_valid n x) by assumption. rewrite HS. unfold par, channel. cbn [Nat.eqb].
    destruct (Nat.ltb_spec l n); [|lia]. reflexivity.
Qed.

(** Moving the sum over orders of the first factor inside. *)
Lemma coupling_sum : forall n1 n2 (g : nat -> nat -> nat -> nat -> nat -> nat -> R),
  rsum 2 (fun p1 => rsum n1 (fun l1 => rsum (2 * l1 + 1) (fun k1 =>
    rsum 2 (fun p2 => rsum n2 (fun l2 => rsum (2 * l2 + 1) (fun k2 => g p1 l1 k1 p2 l2 k2))))))
  = rsum 2 (fun p1 => rsum n1 (fun l1 => rsum 2 (fun p2 => rsum n2 (fun l2 =>
      rsum (2 * l1 + 1) (fun k1 => rsum (2 * l2 + 1) (fun k2 => g p1 l1 k1 p2 l2 k2)))))).
Proof.
  intros. apply rsum_ext. intros p1 _. apply rsum_ext. intros l1 _. rewrite rsum_swap.
  apply rsum_ext. intros p2 _. apply rsum_swap.
Qed.

Lemma dup_degree : forall n l k, (l < n)%nat -> (k < 2 * l + 1)%nat -> dup (Z.of_nat n - 1) (l * l + k) = l.
Proof.
  intros n l k Hl Hk. unfold dup, duplication_indices.
  replace (Z.to_nat (Z.of_nat n - 1) + 1)%nat with n by lia.
  apply (flat_map_degrees nat (fun l => l) 0%nat n l k); assumption.
Qed.

Lemma dup_sqrt : forall n d, (d < n * n)%nat -> dup (Z.of_nat n - 1) d = Nat.sqrt d.
Proof.
  intros n d H. destruct (lt_split n d H) as [l [k [Hl [Hk ->]]]]. rewrite dup_degree by assumption.
  symmetry. apply Nat.sqrt_unique. lia.
Qed.

Lemma mod2_bound : forall l, (l mod 2 < 2)%nat.
Proof. intros; lia. Qed.

Lemma sqrt_block : forall l k, (k < 2 * l + 1)%nat -> Nat.sqrt (l * l + k) = l.
Proof. intros l k Hk. apply Nat.sqrt_unique. lia. Qed.

(** The sum over all entries with weights by degree and an indicator of parity. *)
Lemma full_sum : forall n1 n2 x1 x2 a b f (K : nat -> nat -> nat -> nat -> R) P (C : nat -> nat -> R),
  valid n1 x1 -> valid n2 x2 ->
  rsum (fS x1) (fun p => rsum (fD x1) (fun d => rsum (fS x2) (fun q => rsum (fD x2) (fun m =>
    fv x1 a p d f * fv x2 b q m f
    * (K p (Nat.sqrt d) q (Nat.sqrt m)
       * (if ((par (fS x1) p (Nat.sqrt d) + par (fS x2) q (Nat.sqrt m)) mod 2 =? P)%nat then 1 else 0))
    * C d m))))
  = rsum 2 (fun p1 => rsum n1 (fun l1 => rsum 2 (fun p2 => rsum n2 (fun l2 =>
      if ((p1 + p2) mod 2 =? P)%nat
      then K (channel (fS x1) p1) l1 (channel (fS x2) p2) l2
           * rsum (2 * l1 + 1) (fun k1 => rsum (2 * l2 + 1) (fun k2 =>
               comp x1 a p1 l1 k1 f * comp x2 b p2 l2 k2 f * C (l1 * l1 + k1)%nat (l2 * l2 + k2)%nat))
      else 0)))).
Proof.
  intros n1 n2 x1 x2 a b f K P C H1 H2.
  set (H := fun p d (pi : nat) => rsum 2 (fun p2 => rsum n2 (fun l2 => rsum (2 * l2 + 1) (fun k2 =>
       comp x2 b p2 l2 k2 f * (K p (Nat.sqrt d) (channel (fS x2) p2) (Nat.sqrt (l2 * l2 + k2))
         * (if ((pi + p2) mod 2 =? P)%nat then 1 else 0) * C d (l2 * l2 + k2)%nat))))).
  transitivity (rsum (fS x1) (fun p => rsum (fD x1) (fun d => fv x1 a p d f * H p d (par (fS x1) p (Nat.sqrt d))))).
  { apply rsum_ext. intros p Hp. apply rsum_ext. intros d Hd. unfold H.
    rewrite <- (array_sum n2 x2 b f (fun q m pi2 => K p (Nat.sqrt d) q (Nat.sqrt m)
       * (if ((par (fS x1) p (Nat.sqrt d) + pi2) mod 2 =? P)%nat then 1 else 0) * C d m) H2).
    rewrite <- rsum_scal_l. apply rsum_ext. intros q Hq. rewrite <- rsum_scal_l. apply rsum_ext. intros m Hm. ring. }
  rewrite (array_sum n1 x1 a f H H1). unfold H.
  transitivity (rsum 2 (fun p1 => rsum n1 (fun l1 => rsum (2 * l1 + 1) (fun k1 =>
    rsum 2 (fun p2 => rsum n2 (fun l2 => rsum (2 * l2 + 1) (fun k2 =>
      (if ((p1 + p2) mod 2 =? P)%nat then K (channel (fS x1) p1) l1 (channel (fS x2) p2) l2 else 0)
      * (comp x1 a p1 l1 k1 f * comp x2 b p2 l2 k2 f * C (l1 * l1 + k1)%nat (l2 * l2 + k2)%nat)))))))).
  { apply rsum_ext. intros p1 _. apply rsum_ext. intros l1 _. apply rsum_ext. intros k1 Hk1.
    rewrite <- rsum_scal_l. apply rsum_ext. intros p2 _. rewrite <- rsum_scal_l. apply rsum_ext. intros l2 _.
    rewrite <- rsum_scal_l. apply rsum_ext. intros k2 Hk2. rewrite !sqrt_block by assumption.
    destruct (_ =? P)%nat; ring. }
  rewrite coupling_sum.
  apply rsum_ext. intros p1 _. apply rsum_ext. intros l1 _. apply rsum_ext. intros p2 _. apply rsum_ext. intros l2 _.
  destruct (_ =? P)%nat.
  - rewrite <- rsum_scal_l. apply rsum_ext. intros k1 _. rewrite <- rsum_scal_l. reflexivity.
  - apply rsum_zero. intros k1 _. apply rsum_zero. intros k2 _. ring.
Qed.

Lemma comp_slot : forall n z i p l k f, valid n z -> has_slot z p l -> comp z i p l k f = fv z i (channel (fS z) p) (l * l + k)%nat f
  /\ (l < n)%nat /\ par (fS z) (channel (fS z) p) l = p.
Proof.
  intros n z i p l k f Hz Hs. pose proof (proj1 (has_slot_valid n z p l Hz) Hs) as [Hl Hp].
  rewrite (comp_valid n) by assumption. destruct (Nat.ltb_spec l n); [|lia]. unfold par, channel.
  destruct Hp as [E|[E Ep]]; rewrite E; cbn [Nat.eqb]; [auto|]. rewrite <- Ep, Nat.eqb_refl. auto.
Qed.

Section Tensor.
Variable cgf : Z -> Z -> Z -> result (nat -> nat -> nat -> R).

Lemma tensor_couplings : forall n1 n2 x1 x2 md incl K z, cg_checked cgf ->
  valid n1 x1 -> valid n2 x2 -> tensor cgf md incl K x1 x2 = Ok z ->
  exists n3 C B, cgf (Z.of_nat n1 - 1)%Z (Z.of_nat n2 - 1)%Z (Z.of_nat n3 - 1)%Z = Ok C
    /\ (0 < n1)%nat /\ (0 < n2)%nat /\ (0 < n3)%nat /\ (n3 + 1 <= n1 + n2)%nat
    /\ output_degree md (Z.of_nat n1 - 1) (Z.of_nat n2 - 1) = (Z.of_nat n3 - 1)%Z
    /\ broadcast_shapes (fB x1) (fB x2) = Ok B /\ fB z = B /\ valid n3 z
    /\ fS z = (if output_pseudotensors incl (fS x1) (fS x2) (Z.of_nat n1 - 1) (Z.of_nat n2 - 1) (Z.of_nat n3 - 1) then 2%nat else 1%nat)
    /\ fF z = fF x1 /\ fF x2 = fF x1 /\ fdt z = fdt x1
    /\ weighted_couplings n1 n2 C
         (fun p1 l1 p2 l2 p l f => K (channel (fS x1) p1) l1 (channel (fS x2) p2) l2 (channel (fS z) p) l f)
         (bidx (fB x1) B) (bidx (fB x2) B) x1 x2 z.
Proof.
  intros n1 n2 x1 x2 md incl K z Hcg H1 H2 H. unfold tensor in H.
  rewrite (extract_valid x1 n1 H1), (extract_valid x2 n2 H2) in H. cbn [bind] in H.
  set (L3 := output_degree md (Z.of_nat n1 - 1) (Z.of_nat n2 - 1)) in *.
  destruct (Z.ltb_spec (Z.of_nat n1 - 1 + (Z.of_nat n2 - 1)) L3) as [HL|HL]; [discriminate|].
  destruct (Nat.eqb_spec (fF x1) (fF x2)) as [HF|HF]; [|discriminate]. cbn [negb] in H.
  set (incl' := output_pseudotensors incl (fS x1) (fS x2) (Z.of_nat n1 - 1) (Z.of_nat n2 - 1) L3) in *.
  destruct (cgf (Z.of_nat n1 - 1) (Z.of_nat n2 - 1) L3)%Z as [C|e] eqn:EC; [|discriminate]. cbn [bind] in H.
  assert (HL3 : (0 <= L3)%Z /\ (0 < n1)%nat /\ (0 < n2)%nat).
  { destruct (Z.ltb_spec L3 0); [rewrite Hcg in EC by lia; discriminate|].
    destruct n1; [rewrite Hcg in EC by lia; discriminate|]. destruct n2; [rewrite Hcg in EC by lia; discriminate|]. lia. }
  destruct HL3 as [HL3 [Hn1 Hn2]].
  destruct (broadcast_shapes (fB x1) (fB x2)) as [B|e] eqn:EB; [|discriminate]. cbn [bind] in H.
  set (n3 := Z.to_nat (L3 + 1)) in *.
  assert (EL3 : L3 = (Z.of_nat n3 - 1)%Z) by (unfold n3; lia).
  exists n3, C, B. rewrite <- EL3. split; [exact EC|].
  do 4 (split; [lia|]). split; [reflexivity|]. split; [reflexivity|].
  replace (Z.to_nat (Z.of_nat n1 - 1 + 1)) with n1 in H by lia.
  replace (Z.to_nat (Z.of_nat n2 - 1 + 1)) with n2 in H by lia.
  pose proof H1 as [HS1 HD1]. pose proof H2 as [HS2 HD2].
  destruct (negb ((fS x1 =? 2)%nat && (fS x2 =? 2)%nat && ((if incl' then 2 else 1) =? 2)%nat)) eqn:EM.
  - injection H as <-. cbn [fB fF fS fD fdt].
    match goal with |- _ /\ valid n3 ?zz /\ _ => set (z := zz) end.
    assert (Vz : valid n3 z) by (split; [destruct incl'; auto|reflexivity]).
    do 2 (split; [auto|]). split; [reflexivity|]. split; [reflexivity|]. split; [congruence|]. split; [reflexivity|].
    intros i p l k f Hp Hk Hs. destruct (comp_slot n3 z i p l k f Vz Hs) as [-> [Hl Hpar]].
    assert (HS3 : (fS z = 1 \/ fS z = 2)%nat) by apply Vz.
    assert (Hr : (channel (fS z) p < fS z)%nat) by (unfold channel; destruct HS3 as [E|E]; rewrite E; cbn [Nat.eqb]; lia).
    unfold coupled.
    etransitivity; [|exact (full_sum n1 n2 x1 x2 (bidx (fB x1) B i) (bidx (fB x2) B i) f
       (fun a b c d => K a b c d (channel (fS z) p) l f) p (fun d m => C d m (l * l + k)%nat) H1 H2)]. cbv beta.
    transitivity (rsum (fS x1) (fun p0 => rsum (fD x1) (fun l0 => rsum (fS x2) (fun q => rsum (fD x2) (fun m =>
       fv x1 (bidx (fB x1) B i) p0 l0 f * fv x2 (bidx (fB x2) B i) q m f *
       (K p0 (dup (Z.of_nat n1 - 1) l0) q (dup (Z.of_nat n2 - 1) m) (channel (fS z) p) (dup L3 (l * l + k)) f *
        make_tensor_product_mask (fS x1) n1 (fS x2) n2 (fS z) n3 p0 (dup (Z.of_nat n1 - 1) l0) q (dup (Z.of_nat n2 - 1) m)
          (channel (fS z) p) (dup L3 (l * l + k))) * C l0 m (l * l + k)%nat))))); [reflexivity|].
    apply rsum_ext. intros p1 Hp1. apply rsum_ext. intros d Hd. apply rsum_ext. intros p2 Hp2. apply rsum_ext. intros m Hm.
    rewrite HD1 in Hd. rewrite HD2 in Hm. rewrite EL3, !dup_sqrt, sqrt_block by (assumption || nia).
    assert (Hb : (Nat.sqrt d < n1)%nat) by (destruct (lt_split n1 d Hd) as [? [? [? [? ->]]]]; rewrite sqrt_block by assumption; assumption).
    assert (Hb' : (Nat.sqrt m < n2)%nat) by (destruct (lt_split n2 m Hm) as [? [? [? [? ->]]]]; rewrite sqrt_block by assumption; assumption).
    rewrite mask_value by assumption. rewrite Hpar. reflexivity.
  - injection H as <-. cbn [fB fF fS fD fdt].
    apply negb_false_iff in EM. apply andb_true_iff in EM. destruct EM as [EM E3]. apply andb_true_iff in EM.
    rewrite !Nat.eqb_eq in EM. destruct EM as [E1 E2]. apply Nat.eqb_eq in E3.
    match goal with |- _ /\ valid n3 ?zz /\ _ => set (z := zz) end.
    assert (Vz : valid n3 z) by (split; [auto|reflexivity]).
    do 2 (split; [auto|]). split; [symmetry; exact E3|]. split; [reflexivity|]. split; [congruence|]. split; [reflexivity|].
    intros i p l k f Hp Hk Hs. destruct (comp_slot n3 z i p l k f Vz Hs) as [-> [Hl Hpar]].
    unfold coupled.
    etransitivity; [|exact (full_sum n1 n2 x1 x2 (bidx (fB x1) B i) (bidx (fB x2) B i) f
       (fun a b c d => K a b c d (channel (fS z) p) l f) p (fun d m => C d m (l * l + k)%nat) H1 H2)]. cbv beta.
    assert (ES : fS z = 2%nat) by reflexivity. rewrite ES. unfold channel. cbn [Nat.eqb].
    rewrite E1, E2. unfold par. cbn [Nat.eqb].
    assert (Hdup : forall p0 q d m, (d < fD x1)%nat -> (m < fD x2)%nat ->
       K p0 (dup (Z.of_nat n1 - 1) d) q (dup (Z.of_nat n2 - 1) m) p (dup L3 (l * l + k)) f = K p0 (Nat.sqrt d) q (Nat.sqrt m) p l f).
    { intros p0 q d m Hd Hm. rewrite HD1 in Hd. rewrite HD2 in Hm. rewrite EL3, !dup_sqrt, sqrt_block by (assumption || nia). reflexivity. }
    rewrite rsum2.
    assert (Hd2 : forall (g : nat -> nat -> nat -> R) N M, rsum N (fun d => rsum 2 (fun q => rsum M (fun m => g d q m)))
       = rsum N (fun d => rsum M (fun m => g d 0%nat m)) + rsum N (fun d => rsum M (fun m => g d 1%nat m))).
    { intros g N M. rewrite <- rsum_plus. apply rsum_ext. intros d _. apply rsum2. }
    rewrite !Hd2.
    assert (HZ : forall (g : nat -> nat -> R) N M, (forall d m, g d m = 0) -> rsum N (fun d => rsum M (fun m => g d m)) = 0).
    { intros g N M Hg. apply rsum_zero. intros d _. apply rsum_zero. intros m _. apply Hg. }
    destruct p as [|[|p]]; [| |lia].
    + change ((0 + 0) mod 2 =? 0)%nat with true. change ((1 + 1) mod 2 =? 0)%nat with true.
      change ((0 + 1) mod 2 =? 0)%nat with false. change ((1 + 0) mod 2 =? 0)%nat with false. cbv iota.
      rewrite (HZ (fun d m => fv x1 (bidx (fB x1) B i) 0%nat d f * fv x2 (bidx (fB x2) B i) 1%nat m f * _ * _)) by (intros; ring).
      rewrite (HZ (fun d m => fv x1 (bidx (fB x1) B i) 1%nat d f * fv x2 (bidx (fB x2) B i) 0%nat m f * _ * _)) by (intros; ring).
      rewrite Rplus_0_r, Rplus_0_l. unfold z. cbn [fv Nat.eqb].
      f_equal; apply rsum_ext; intros d Hd; apply rsum_ext; intros m Hm; rewrite Hdup by assumption; ring.
    + change ((0 + 0) mod 2 =? 1)%nat with false. change ((1 + 1) mod 2 =? 1)%nat with false.
      change ((0 + 1) mod 2 =? 1)%nat with true. change ((1 + 0) mod 2 =? 1)%nat with true. cbv iota.
      rewrite (HZ (fun d m => fv x1 (bidx (fB x1) B i) 0%nat d f * fv x2 (bidx (fB x2) B i) 0%nat m f * _ * _)) by (intros; ring).
      rewrite (HZ (fun d m => fv x1 (bidx (fB x1) B i) 1%nat d f * fv x2 (bidx (fB x2) B i) 1%nat m f * _ * _)) by (intros; ring).
      rewrite Rplus_0_r, Rplus_0_l. unfold z. cbn [fv Nat.eqb].
      f_equal; apply rsum_ext; intros d Hd; apply rsum_ext; intros m Hm; rewrite Hdup by assumption; ring.
Qed.

End Tensor.

(** * Equivariance of weighted couplings *)

Lemma parity_sign_mult : forall s p1 p2 p, s * s = 1 -> (p1 < 2)%nat -> (p2 < 2)%nat -> ((p1 + p2) mod 2)%nat = p ->
  parity_sign s p1 * parity_sign s p2 = parity_sign s p.
Proof.
  intros s p1 p2 p Hs H1 H2 <-. destruct p1 as [|[|?]], p2 as [|[|?]]; try lia;
    match goal with |- context [((?a + ?b) mod 2)%nat] => let r := eval compute in ((a + b) mod 2)%nat in change ((a + b) mod 2)%nat with r end;
    unfold parity_sign; cbn [Nat.eqb]; lra.
Qed.

Lemma coupled_transformed : forall n1 n2 n3 C D l1 l2 l k (u v u' v' : nat -> R) s1 s2, intertwines n1 n2 n3 C D ->
  (l1 < n1)%nat -> (l2 < n2)%nat -> (l < n3)%nat -> (k < 2 * l + 1)%nat ->
  (forall k, (k < 2 * l1 + 1)%nat -> u' k = s1 * rsum (2 * l1 + 1) (fun a => u a * D (l1 * l1 + a)%nat (l1 * l1 + k)%nat)) ->
  (forall k, (k < 2 * l2 + 1)%nat -> v' k = s2 * rsum (2 * l2 + 1) (fun b => v b * D (l2 * l2 + b)%nat (l2 * l2 + k)%nat)) ->
  coupled C u' v' l1 l2 l k
  = s1 * s2 * rsum (2 * l + 1) (fun k3 => coupled C u v l1 l2 l k3 * D (l * l + k3)%nat (l * l + k)%nat).
Proof.
  intros n1 n2 n3 C D l1 l2 l k u v u' v' s1 s2 HC H1 H2 H3 Hk Hu Hv. unfold coupled.
  transitivity (s1 * s2 * rsum (2 * l1 + 1) (fun a => rsum (2 * l2 + 1) (fun b => u a * v b *
     rsum (2 * l1 + 1) (fun k1 => rsum (2 * l2 + 1) (fun k2 =>
       D (l1 * l1 + a)%nat (l1 * l1 + k1)%nat * D (l2 * l2 + b)%nat (l2 * l2 + k2)%nat
       * C (l1 * l1 + k1)%nat (l2 * l2 + k2)%nat (l * l + k)%nat))))).
  - transitivity (s1 * s2 * rsum (2 * l1 + 1) (fun k1 => rsum (2 * l2 + 1) (fun k2 =>
       rsum (2 * l1 + 1) (fun a => rsum (2 * l2 + 1) (fun b => u a * v b *
       (D (l1 * l1 + a)%nat (l1 * l1 + k1)%nat * D (l2 * l2 + b)%nat (l2 * l2 + k2)%nat
       * C (l1 * l1 + k1)%nat (l2 * l2 + k2)%nat (l * l + k)%nat)))))).
    + rewrite <- rsum_scal_l. apply rsum_ext. intros k1 Hk1. rewrite <- rsum_scal_l. apply rsum_ext. intros k2 Hk2.
      rewrite (Hu k1 Hk1), (Hv k2 Hk2).
      rewrite !Rmult_assoc. f_equal. rewrite <- (rsum_scal_l (2 * l1 + 1)), <- (rsum_scal_r (2 * l1 + 1)). apply rsum_ext. intros a _.
      rewrite <- (rsum_scal_l (2 * l2 + 1) s2), <- (rsum_scal_r (2 * l2 + 1)), <- !rsum_scal_l. apply rsum_ext. intros b _. ring.
    + f_equal. etransitivity; [apply rsum_ext; intros k1 _; rewrite rsum_swap; apply rsum_ext; intros a _; apply rsum_swap|].
      rewrite rsum_swap. apply rsum_ext. intros a _. rewrite rsum_swap. apply rsum_ext. intros b _.
      rewrite <- rsum_scal_l. apply rsum_ext. intros k1 _. rewrite <- rsum_scal_l. reflexivity.
  - f_equal.
    transitivity (rsum (2 * l1 + 1) (fun a => rsum (2 * l2 + 1) (fun b => rsum (2 * l + 1) (fun k3 =>
       u a * v b * C (l1 * l1 + a)%nat (l2 * l2 + b)%nat (l * l + k3)%nat * D (l * l + k3)%nat (l * l + k)%nat)))).
    + apply rsum_ext. intros a Ha. apply rsum_ext. intros b Hb. rewrite HC by assumption.
      rewrite <- rsum_scal_l. apply rsum_ext. intros k3 _. ring.
    + etransitivity; [apply rsum_ext; intros a _; apply rsum_swap|]. rewrite rsum_swap. apply rsum_ext. intros k3 _.
      rewrite <- rsum_scal_r. apply rsum_ext. intros a _. rewrite <- rsum_scal_r. reflexivity.
Qed.

Lemma couplings_transformed : forall n1 n2 n3 C W a b x y z x' y' z' s Dx Dy Dz, s * s = 1 ->
  (forall i, intertwines n1 n2 n3 C (Dz i)) ->
  (forall i, Dx (a i) = Dz i) -> (forall i, Dy (b i) = Dz i) ->
  transformed s Dx x x' -> transformed s Dy y y' -> valid n3 z ->
  weighted_couplings n1 n2 C W a b x y z -> weighted_couplings n1 n2 C W a b x' y' z' ->
  fB z' = fB z -> fS z' = fS z -> fD z' = fD z -> fF z' = fF z -> fdt z' = fdt z ->
  transformed s Dz z z'.
Proof.
  intros n1 n2 n3 C W a b x y z x' y' z' s Dx Dy Dz Hs HC Ha Hb Tx Ty Hz Wz Wz' EB ES ED EF Ed.
  do 5 (split; [assumption|]). intros i p l k f Hp Hk.
  assert (Hz' : valid n3 z') by (destruct Hz; split; congruence).
  destruct (slot_dec z p l) as [Hs0|Hs0].
  - rewrite Wz' by (assumption || (apply (has_slot_ext z' z); auto)).
    pose proof (proj1 (has_slot_valid n3 z p l Hz) Hs0) as [Hl _].
    etransitivity; [|apply f_equal; symmetry; apply rsum_ext; intros k' Hk'; rewrite (Wz i p l k' f Hp Hk' Hs0); reflexivity].
    transitivity (parity_sign s p * rsum (2 * l + 1) (fun k' =>
      rsum 2 (fun p1 => rsum n1 (fun l1 => rsum 2 (fun p2 => rsum n2 (fun l2 =>
       (if ((p1 + p2) mod 2 =? p)%nat then W p1 l1 p2 l2 p l f *
           coupled C (fun k1 => comp x (a i) p1 l1 k1 f) (fun k2 => comp y (b i) p2 l2 k2 f) l1 l2 l k' else 0)
       * Dz i (l * l + k')%nat (l * l + k)%nat)))))).
    2: { f_equal. apply rsum_ext. intros k' _. rewrite <- rsum_scal_r. apply rsum_ext. intros p1 _.
      rewrite <- rsum_scal_r. apply rsum_ext. intros l1 _. rewrite <- rsum_scal_r. apply rsum_ext. intros p2 _.
      rewrite <- rsum_scal_r. reflexivity. }
    symmetry. rewrite rsum_swap, <- rsum_scal_l. apply rsum_ext. intros p1 Hp1.
    rewrite rsum_swap, <- rsum_scal_l. apply rsum_ext. intros l1 Hl1.
    rewrite rsum_swap, <- rsum_scal_l. apply rsum_ext. intros p2 Hp2.
    rewrite rsum_swap, <- rsum_scal_l. apply rsum_ext. intros l2 Hl2.
    destruct (Nat.eqb_spec ((p1 + p2) mod 2) p) as [E|E].
    + rewrite (coupled_transformed n1 n2 n3 C (Dz i) l1 l2 l k (fun k1 => comp x (a i) p1 l1 k1 f) (fun k2 => comp y (b i) p2 l2 k2 f)
        _ _ (parity_sign s p1) (parity_sign s p2)) by
        (solve [auto] || (intros k0 Hk0; first [rewrite <- (Ha i); apply Tx; assumption|rewrite <- (Hb i); apply Ty; assumption])).
      rewrite (parity_sign_mult s p1 p2 p) by assumption.
      match goal with |- _ = ?w * (?q * ?r) => transitivity (q * (w * r)); [f_equal|ring] end.
      rewrite <- rsum_scal_l. apply rsum_ext. intros k3 _. ring.
    + etransitivity; [apply f_equal, rsum_zero; intros k' _; ring|]. ring.
  - rewrite (no_slot n3) by (assumption || (intros H; apply Hs0; apply (has_slot_ext z' z); auto)).
    rewrite rsum_zero; [ring|]. intros k' _. rewrite (no_slot n3) by assumption. ring.
Qed.

(** * Fused coefficients *)

Lemma rsum_delta : forall n (g : nat -> R) u, (u < n)%nat -> rsum n (fun k => (if (u =? k)%nat then 1 else 0) * g k) = g u.
Proof.
  intros n g u Hu. rewrite (rsum_single n _ u) by (assumption || (intros j _ Hj; destruct (Nat.eqb_spec u j); [lia|ring])).
  rewrite Nat.eqb_refl. ring.
Qed.

(** The same relation for the transposed coefficients. *)
Lemma transposed_relation : forall w m (D d : nat -> nat -> R) (C : nat -> nat -> nat -> R),
  (forall u u', (u < w)%nat -> (u' < w)%nat -> rsum w (fun j => D j u * D j u') = if (u =? u')%nat then 1 else 0) ->
  (forall u u', (u < m)%nat -> (u' < m)%nat -> rsum m (fun j => d u j * d u' j) = if (u =? u')%nat then 1 else 0) ->
  (forall a b c, (a < w)%nat -> (b < w)%nat -> (c < m)%nat ->
     rsum w (fun k1 => rsum w (fun k2 => D a k1 * D b k2 * C k1 k2 c)) = rsum m (fun k3 => C a b k3 * d k3 c)) ->
  forall u v a, (u < w)%nat -> (v < w)%nat -> (a < m)%nat ->
  rsum m (fun k => d a k * C u v k) = rsum w (fun u' => rsum w (fun v' => D u' u * D v' v * C u' v' a)).
Proof.
  intros w m D d C HD Hd HC u v a Hu Hv Ha. symmetry.
  transitivity (rsum w (fun u' => rsum w (fun v' => rsum m (fun c => rsum w (fun k1 => rsum w (fun k2 =>
     d a c * C k1 k2 c * ((D u' u * D u' k1) * (D v' v * D v' k2)))))))).
  - apply rsum_ext. intros u' Hu'. apply rsum_ext. intros v' Hv'.
    transitivity (D u' u * D v' v * rsum m (fun c => d a c * rsum m (fun k3 => C u' v' k3 * d k3 c))).
    + f_equal. transitivity (rsum m (fun k3 => (if (a =? k3)%nat then 1 else 0) * C u' v' k3)); [symmetry; apply rsum_delta; assumption|].
      transitivity (rsum m (fun k3 => rsum m (fun c => d a c * (C u' v' k3 * d k3 c)))).
      * apply rsum_ext. intros k3 Hk3. rewrite <- Hd by assumption. rewrite <- rsum_scal_r. apply rsum_ext. intros c _. ring.
      * rewrite rsum_swap. apply rsum_ext. intros c _. rewrite <- rsum_scal_l. reflexivity.
    + rewrite <- rsum_scal_l. apply rsum_ext. intros c Hc. rewrite <- HC by assumption.
      rewrite <- !rsum_scal_l. apply rsum_ext. intros k1 _. rewrite <- !rsum_scal_l. apply rsum_ext. intros k2 _. ring.
  - transitivity (rsum m (fun c => rsum w (fun k1 => rsum w (fun k2 => d a c * C k1 k2 c *
       (rsum w (fun u' => D u' u * D u' k1) * rsum w (fun v' => D v' v * D v' k2)))))).
    + etransitivity; [apply rsum_ext; intros u' _; apply rsum_swap|]. rewrite rsum_swap. apply rsum_ext. intros c _.
      etransitivity; [apply rsum_ext; intros u' _; etransitivity; [apply rsum_swap|apply rsum_ext; intros k1 _; apply rsum_swap]|].
      rewrite rsum_swap. apply rsum_ext. intros k1 _. rewrite rsum_swap. apply rsum_ext. intros k2 _.
      rewrite <- rsum_scal_r, <- rsum_scal_l. apply rsum_ext. intros u' _.
      rewrite <- rsum_scal_l, <- rsum_scal_l. reflexivity.
    + apply rsum_ext. intros c _.
      transitivity (rsum w (fun k1 => (if (u =? k1)%nat then 1 else 0) * (d a c * C k1 v c))).
      * apply rsum_ext. intros k1 Hk1. rewrite HD by assumption.
        transitivity (rsum w (fun k2 => (if (v =? k2)%nat then 1 else 0) * ((if (u =? k1)%nat then 1 else 0) * (d a c * C k1 k2 c)))).
        -- apply rsum_ext. intros k2 Hk2. rewrite HD by assumption. ring.
        -- apply rsum_delta. assumption.
      * apply rsum_delta. assumption.
Qed.

Definition fuse (w : nat) (C : nat -> nat -> nat -> R) (d1 d2 d3 : nat) : R :=
  rsum w (fun u => rsum w (fun v => rsum w (fun t => C u v d1 * C v t d2 * C u t d3))).

(** sum over both pairs of primed indices *)
Lemma fuse_relation : forall w m1 m2 m3 (D d1 d2 d3 : nat -> nat -> R) (C1 C2 C3 : nat -> nat -> nat -> R),
  (forall u u', (u < w)%nat -> (u' < w)%nat -> rsum w (fun j => D j u * D j u') = if (u =? u')%nat then 1 else 0) ->
  (forall u u', (u < w)%nat -> (u' < w)%nat -> rsum w (fun j => D u j * D u' j) = if (u =? u')%nat then 1 else 0) ->
  (forall u u', (u < m1)%nat -> (u' < m1)%nat -> rsum m1 (fun j => d1 u j * d1 u' j) = if (u =? u')%nat then 1 else 0) ->
  (forall u u', (u < m2)%nat -> (u' < m2)%nat -> rsum m2 (fun j => d2 u j * d2 u' j) = if (u =? u')%nat then 1 else 0) ->
  (forall a b c, (a < w)%nat -> (b < w)%nat -> (c < m1)%nat ->
     rsum w (fun k1 => rsum w (fun k2 => D a k1 * D b k2 * C1 k1 k2 c)) = rsum m1 (fun k3 => C1 a b k3 * d1 k3 c)) ->
  (forall a b c, (a < w)%nat -> (b < w)%nat -> (c < m2)%nat ->
     rsum w (fun k1 => rsum w (fun k2 => D a k1 * D b k2 * C2 k1 k2 c)) = rsum m2 (fun k3 => C2 a b k3 * d2 k3 c)) ->
  (forall a b c, (a < w)%nat -> (b < w)%nat -> (c < m3)%nat ->
     rsum w (fun k1 => rsum w (fun k2 => D a k1 * D b k2 * C3 k1 k2 c)) = rsum m3 (fun k3 => C3 a b k3 * d3 k3 c)) ->
  forall a b c, (a < m1)%nat -> (b < m2)%nat -> (c < m3)%nat ->
  rsum m1 (fun k1 => rsum m2 (fun k2 => d1 a k1 * d2 b k2 *
     rsum w (fun u => rsum w (fun v => rsum w (fun t => C1 u v k1 * C2 v t k2 * C3 u t c)))))
  = rsum m3 (fun k3 => rsum w (fun u => rsum w (fun v => rsum w (fun t => C1 u v a * C2 v t b * C3 u t k3))) * d3 k3 c).
Proof.
  intros w m1 m2 m3 D d1 d2 d3 C1 C2 C3 Hc Hr Hr1 Hr2 H1 H2 H3 a b c Ha Hb Hc'.
  transitivity (rsum w (fun u => rsum w (fun t => C3 u t c *
     rsum w (fun v => rsum m1 (fun k1 => d1 a k1 * C1 u v k1) * rsum m2 (fun k2 => d2 b k2 * C2 v t k2))))).
  { transitivity (rsum m1 (fun k1 => rsum m2 (fun k2 => rsum w (fun u => rsum w (fun t => rsum w (fun v =>
        d1 a k1 * d2 b k2 * (C1 u v k1 * C2 v t k2 * C3 u t c))))))).
    - apply rsum_ext. intros k1 _. apply rsum_ext. intros k2 _. rewrite <- rsum_scal_l. apply rsum_ext. intros u _.
      rewrite rsum_swap, <- rsum_scal_l. apply rsum_ext. intros t _. rewrite <- rsum_scal_l. reflexivity.
    - etransitivity; [apply rsum_ext; intros k1 _; rewrite rsum_swap; apply rsum_ext; intros u _; rewrite rsum_swap;
        apply rsum_ext; intros t _; apply rsum_swap|].
      rewrite rsum_swap. apply rsum_ext. intros u _. rewrite rsum_swap. apply rsum_ext. intros t _.
      rewrite rsum_swap, <- rsum_scal_l. apply rsum_ext. intros v _.
      rewrite <- rsum_scal_r, <- rsum_scal_l. apply rsum_ext. intros k1 _.
      rewrite <- rsum_scal_l, <- rsum_scal_l. apply rsum_ext. intros k2 _. ring. }
  transitivity (rsum w (fun u => rsum w (fun t => C3 u t c *
     rsum w (fun u' => rsum w (fun v' => rsum w (fun t' => D u' u * D t' t * (C1 u' v' a * C2 v' t' b))))))).
  { apply rsum_ext. intros u Hu. apply rsum_ext. intros t Ht. f_equal.
    transitivity (rsum w (fun v => rsum w (fun u' => rsum w (fun v' => rsum w (fun v'' => rsum w (fun t' =>
       D u' u * D t' t * C1 u' v' a * C2 v'' t' b * (D v' v * D v'' v))))))).
    - apply rsum_ext. intros v Hv.
      rewrite (transposed_relation w m1 D d1 C1 Hc Hr1 H1) by assumption.
      rewrite (transposed_relation w m2 D d2 C2 Hc Hr2 H2) by assumption.
      rewrite <- rsum_scal_r. apply rsum_ext. intros u' _. rewrite <- rsum_scal_r. apply rsum_ext. intros v' _.
      rewrite <- rsum_scal_l. apply rsum_ext. intros v'' _. rewrite <- rsum_scal_l. apply rsum_ext. intros t' _. ring.
    - rewrite rsum_swap. apply rsum_ext. intros u' _. rewrite rsum_swap. apply rsum_ext. intros v' Hv'.
      rewrite rsum_swap.
      transitivity (rsum w (fun v'' => (if (v' =? v'')%nat then 1 else 0) * rsum w (fun t' => D u' u * D t' t * (C1 u' v' a * C2 v'' t' b)))).
      + apply rsum_ext. intros v'' Hv''. rewrite rsum_swap, <- rsum_scal_l. apply rsum_ext. intros t' _.
        rewrite rsum_scal_l, Hr by assumption. ring.
      + apply (rsum_delta w (fun v'' => rsum w (fun t' => D u' u * D t' t * (C1 u' v' a * C2 v'' t' b)))). assumption. }
  transitivity (rsum w (fun u' => rsum w (fun v' => rsum w (fun t' => C1 u' v' a * C2 v' t' b *
     rsum w (fun u => rsum w (fun t => D u' u * D t' t * C3 u t c)))))).
  { transitivity (rsum w (fun u => rsum w (fun t => rsum w (fun u' => rsum w (fun v' => rsum w (fun t' =>
       C1 u' v' a * C2 v' t' b * (D u' u * D t' t * C3 u t c))))))).
    - apply rsum_ext. intros u _. apply rsum_ext. intros t _. rewrite <- rsum_scal_l. apply rsum_ext. intros u' _.
      rewrite <- rsum_scal_l. apply rsum_ext. intros v' _. rewrite <- rsum_scal_l. apply rsum_ext. intros t' _. ring.
    - etransitivity; [apply rsum_ext; intros u _; rewrite rsum_swap; apply rsum_ext; intros u' _; rewrite rsum_swap;
        apply rsum_ext; intros v' _; apply rsum_swap|].
      rewrite rsum_swap. apply rsum_ext. intros u' _. rewrite rsum_swap. apply rsum_ext. intros v' _.
      rewrite rsum_swap. apply rsum_ext. intros t' _. rewrite <- rsum_scal_l. apply rsum_ext. intros u _.
      rewrite <- rsum_scal_l. reflexivity. }
  symmetry.
  transitivity (rsum m3 (fun k3 => rsum w (fun u => rsum w (fun v => rsum w (fun t => C1 u v a * C2 v t b * (C3 u t k3 * d3 k3 c)))))).
  { apply rsum_ext. intros k3 _. rewrite <- rsum_scal_r. apply rsum_ext. intros u _. rewrite <- rsum_scal_r. apply rsum_ext. intros v _.
    rewrite <- rsum_scal_r. apply rsum_ext. intros t _. ring. }
  rewrite rsum_swap. apply rsum_ext. intros u Hu. rewrite rsum_swap. apply rsum_ext. intros v Hv.
  rewrite rsum_swap. apply rsum_ext. intros t Ht. rewrite rsum_scal_l, <- H3 by assumption. reflexivity.
Qed.

Lemma fuse_intertwines : forall M n1 n2 n3 n C (D : list nat -> nat -> nat -> R) i,
  orthogonal_blocks D -> intertwines (M + 1) (M + 1) n C (D i) -> (n1 <= n)%nat -> (n2 <= n)%nat -> (n3 <= n)%nat ->
  intertwines n1 n2 n3 (fuse (2 * M + 1) (fun u v d => C (M * M + u)%nat (M * M + v)%nat d)) (D i).
Proof.
  intros M n1 n2 n3 n C D i HO HI H1 H2 H3 l1 l2 l3 a b c Hl1 Hl2 Hl3 Ha Hb Hc. unfold fuse.
  apply (fuse_relation (2 * M + 1) (2 * l1 + 1) (2 * l2 + 1) (2 * l3 + 1)
    (fun j k => D i (M * M + j)%nat (M * M + k)%nat)
    (fun j k => D i (l1 * l1 + j)%nat (l1 * l1 + k)%nat)
    (fun j k => D i (l2 * l2 + j)%nat (l2 * l2 + k)%nat)
    (fun j k => D i (l3 * l3 + j)%nat (l3 * l3 + k)%nat)
    (fun u v d => C (M * M + u)%nat (M * M + v)%nat (l1 * l1 + d)%nat)
    (fun u v d => C (M * M + u)%nat (M * M + v)%nat (l2 * l2 + d)%nat)
    (fun u v d => C (M * M + u)%nat (M * M + v)%nat (l3 * l3 + d)%nat)); auto.
  - intros u u' Hu Hu'. apply (HO i M u u'); assumption.
  - intros u u' Hu Hu'. apply (HO i M u u'); assumption.
  - intros u u' Hu Hu'. apply (HO i l1 u u'); assumption.
  - intros u u' Hu Hu'. apply (HO i l2 u u'); assumption.
  - intros a0 b0 c0 Ha0 Hb0 Hc0. apply (HI M M l1); lia.
  - intros a0 b0 c0 Ha0 Hb0 Hc0. apply (HI M M l2); lia.
  - intros a0 b0 c0 Ha0 Hb0 Hc0. apply (HI M M l3); lia.
Qed.
