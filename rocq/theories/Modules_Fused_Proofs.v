(** Proofs about FusedTensor: it computes a weighted sum of couplings. *)
Require Import List Reals ZArith Bool Lia Lra.
Require Import ZifyNat.
Require Import Verif.Base Verif.RSum Verif.Features_Model Verif.Features_Spec Verif.Features_Proofs
  Verif.Modules_Model Verif.Modules_Spec Verif.Modules_Proofs Verif.Modules_Tensor_Proofs.
Import ListNotations.
Open Scope R_scope.
Arguments Nat.modulo : simpl never.
Arguments Nat.mul : simpl never.
Ltac Zify.zify_post_hook ::= Z.div_mod_to_equations.

(** * FusedTensor *)

Definition kin1 (P : fused_params) (p : nat) : nat -> nat -> R := if (p =? 1)%nat then k_o1 P else k_e1 P.
Definition kin2 (P : fused_params) (p : nat) : nat -> nat -> R := if (p =? 1)%nat then k_o2 P else k_e2 P.
Definition kout (P : fused_params) (p1 p2 : nat) : nat -> nat -> R :=
  match p1, p2 with O, O => k_eee P | O, _ => k_eoo P | _, O => k_oeo P | _, _ => k_ooe P end.

Lemma fused_masks : forall L l k, (l < L + 1)%nat -> (k < 2 * l + 1)%nat ->
  fused_even_mask L (l * l + k) = (if (l mod 2 =? 0)%nat then 1 else 0)
  /\ fused_odd_mask L (l * l + k) = (if (l mod 2 =? 1)%nat then 1 else 0).
Proof.
  intros L l k Hl Hk. unfold fused_even_mask, fused_odd_mask.
  rewrite (proj1 (flat_map_degrees R (fun l => INR ((l + 1) mod 2)) 0 (L + 1) l k Hl Hk)).
  rewrite (proj1 (flat_map_degrees R (fun l => INR (l mod 2)) 0 (L + 1) l k Hl Hk)).
  pose proof (Nat.mod_upper_bound l 2 ltac:(lia)).
  destruct (l mod 2)%nat as [|[|?]] eqn:E; [| |lia].
  - replace ((l + 1) mod 2)%nat with 1%nat by lia. cbn. split; lra.
  - replace ((l + 1) mod 2)%nat with 0%nat by lia. cbn. split; lra.
Qed.

Lemma vec_sum : forall w N1 N2 (X1 X2 : nat -> R) (c : nat -> nat -> nat -> R) kap n,
  rsum w (fun u => rsum w (fun t => rsum w (fun v =>
     rsum N1 (fun d1 => X1 d1 * c u v d1) * rsum N2 (fun d2 => X2 d2 * c v t d2)) * kap * c u t n))
  = kap * rsum N1 (fun d1 => rsum N2 (fun d2 => X1 d1 * X2 d2 * fuse w c d1 d2 n)).
Proof.
  intros.
  transitivity (rsum w (fun u => rsum w (fun t => rsum w (fun v => rsum N1 (fun d1 => rsum N2 (fun d2 =>
     kap * (X1 d1 * X2 d2 * (c u v d1 * c v t d2 * c u t n)))))))).
  - apply rsum_ext. intros u _. apply rsum_ext. intros t _. rewrite Rmult_assoc, <- rsum_scal_r.
    apply rsum_ext. intros v _. rewrite Rmult_assoc, <- rsum_scal_r. apply rsum_ext. intros d1 _.
    rewrite <- rsum_scal_r, <- rsum_scal_l. apply rsum_ext. intros d2 _. ring.
  - etransitivity; [apply rsum_ext; intros u _; rewrite rsum_swap; reflexivity|].
    etransitivity; [apply rsum_ext; intros u _; apply rsum_ext; intros v _; etransitivity;
      [apply rsum_swap|apply rsum_ext; intros d1 _; apply rsum_swap]|].
    etransitivity; [apply rsum_ext; intros u _; etransitivity;
      [apply rsum_swap|apply rsum_ext; intros d1 _; apply rsum_swap]|].
    etransitivity; [etransitivity; [apply rsum_swap|apply rsum_ext; intros d1 _; apply rsum_swap]|].
    rewrite <- rsum_scal_l. apply rsum_ext. intros d1 _. rewrite <- rsum_scal_l. apply rsum_ext. intros d2 _.
    unfold fuse. rewrite <- !rsum_scal_l. apply rsum_ext. intros u _. rewrite <- !rsum_scal_l. apply rsum_ext. intros v _.
    rewrite <- !rsum_scal_l. reflexivity.
Qed.

(** One coupling path. *)
Lemma path_sum : forall n1 n2 w (X1 X2 : nat -> R) (c1 c2 : nat -> nat -> R) (k1 k2 : nat -> R) (c : nat -> nat -> nat -> R) kap l k,
  (forall l j, (l < n1)%nat -> (j < 2 * l + 1)%nat -> X1 (l * l + j)%nat = c1 l j * k1 l) ->
  (forall l j, (l < n2)%nat -> (j < 2 * l + 1)%nat -> X2 (l * l + j)%nat = c2 l j * k2 l) ->
  rsum w (fun u => rsum w (fun t => rsum w (fun v =>
     rsum (n1 * n1) (fun d1 => X1 d1 * c u v d1) * rsum (n2 * n2) (fun d2 => X2 d2 * c v t d2)) * kap * c u t (l * l + k)%nat))
  = rsum n1 (fun l1 => rsum n2 (fun l2 => k1 l1 * k2 l2 * kap * coupled (fuse w c) (c1 l1) (c2 l2) l1 l2 l k)).
Proof.
  intros n1 n2 w X1 X2 c1 c2 k1 k2 c kap l k H1 H2. rewrite vec_sum, rsum_degrees, <- rsum_scal_l.
  apply rsum_ext. intros l1 Hl1.
  transitivity (kap * rsum (2 * l1 + 1) (fun j1 => rsum n2 (fun l2 => rsum (2 * l2 + 1) (fun j2 =>
     X1 (l1 * l1 + j1)%nat * X2 (l2 * l2 + j2)%nat * fuse w c (l1 * l1 + j1) (l2 * l2 + j2) (l * l + k))))).
  { f_equal. apply rsum_ext. intros j1 _. apply rsum_degrees. }
  rewrite rsum_swap, <- rsum_scal_l. apply rsum_ext. intros l2 Hl2. unfold coupled. rewrite <- !rsum_scal_l.
  apply rsum_ext. intros j1 Hj1. rewrite <- !rsum_scal_l. apply rsum_ext. intros j2 Hj2.
  rewrite H1, H2 by assumption. ring.
Qed.

Section Fused.
Variable cgf : Z -> Z -> Z -> result (nat -> nat -> nat -> R).

Lemma fused_couplings : forall n1 n2 x1 x2 md incl P z, cg_checked cgf ->
  (forall d, md = Some d -> (0 <= d)%Z) ->
  valid n1 x1 -> valid n2 x2 -> fused_tensor cgf md incl P x1 x2 = Ok z ->
  exists n3 n M C B, cgf (Z.of_nat M) (Z.of_nat M) (Z.of_nat n - 1)%Z = Ok C
    /\ n = Nat.max n1 (Nat.max n2 n3) /\ (0 < n)%nat /\ M = (n / 2)%nat /\ (n3 + 1 <= n1 + n2)%nat
    /\ output_degree md (Z.of_nat n1 - 1) (Z.of_nat n2 - 1) = (Z.of_nat n3 - 1)%Z
    /\ broadcast_shapes (fB x1) (fB x2) = Ok B /\ fB z = B /\ valid n3 z
    /\ fS z = (if output_pseudotensors incl (fS x1) (fS x2) (Z.of_nat n1 - 1) (Z.of_nat n2 - 1) (Z.of_nat n3 - 1) then 2%nat else 1%nat)
    /\ fF z = fF x1 /\ fF x2 = fF x1 /\ fdt z = fdt x1
    /\ weighted_couplings n1 n2 (fuse (2 * M + 1) (fun u v d => C (M * M + u)%nat (M * M + v)%nat d))
         (fun p1 l1 p2 l2 p l f => kin1 P p1 l1 f * kin2 P p2 l2 f * kout P p1 p2 l f)
         (bidx (fB x1) B) (bidx (fB x2) B) x1 x2 z.
Proof.
  intros n1 n2 x1 x2 md incl P z Hcg Hmd H1 H2 H. unfold fused_tensor in H.
  rewrite (extract_valid x1 n1 H1), (extract_valid x2 n2 H2) in H. cbn [bind] in H.
  set (L3 := output_degree md (Z.of_nat n1 - 1) (Z.of_nat n2 - 1)) in *.
  assert (HL0 : (-1 <= L3)%Z) by (unfold L3, output_degree; destruct md as [d|]; [specialize (Hmd d eq_refl)|]; lia).
  destruct (Z.ltb_spec (Z.of_nat n1 - 1 + (Z.of_nat n2 - 1)) L3) as [HL|HL]; [discriminate|].
  destruct (Nat.eqb_spec (fF x1) (fF x2)) as [HF|HF]; [|discriminate]. cbn [negb] in H.
  set (n3 := Z.to_nat (L3 + 1)). set (n := Nat.max n1 (Nat.max n2 n3)). set (M := (n / 2)%nat).
  assert (EL3 : L3 = (Z.of_nat n3 - 1)%Z) by (unfold n3; lia).
  assert (EL : Z.max (Z.of_nat n1 - 1) (Z.max (Z.of_nat n2 - 1) L3) = (Z.of_nat n - 1)%Z) by (unfold n; lia).
  rewrite EL in H.
  assert (EM : ((Z.of_nat n - 1 + 1) / 2)%Z = Z.of_nat M) by (unfold M; rewrite Nat2Z.inj_div; f_equal; lia).
  rewrite EM in H. rewrite EL3 in *. clear EL3. clearbody n3. clear L3.
  set (incl' := output_pseudotensors incl (fS x1) (fS x2) (Z.of_nat n1 - 1) (Z.of_nat n2 - 1) (Z.of_nat n3 - 1)) in *.
  destruct (cgf (Z.of_nat M) (Z.of_nat M) (Z.of_nat n - 1))%Z as [C|e] eqn:EC; [|discriminate]. cbn [bind] in H.
  assert (Hn : (0 < n)%nat) by (destruct n; [rewrite Hcg in EC by lia; discriminate|lia]).
  destruct (broadcast_shapes (fB x1) (fB x2)) as [B|e] eqn:EB; [|discriminate]. cbn [bind] in H.
  exists n3, n, M, C, B. split; [exact EC|]. split; [reflexivity|]. split; [exact Hn|]. split; [reflexivity|].
  split; [lia|]. split; [reflexivity|]. split; [reflexivity|].
  replace (Z.to_nat (Z.of_nat M * Z.of_nat M)) with (M * M)%nat in H by lia.
  replace (Z.to_nat ((Z.of_nat M + 1) * (Z.of_nat M + 1) - Z.of_nat M * Z.of_nat M)) with (2 * M + 1)%nat in H by lia.
  replace (Z.to_nat ((Z.of_nat n1 - 1 + 1) * (Z.of_nat n1 - 1 + 1))) with (n1 * n1)%nat in H by lia.
  replace (Z.to_nat ((Z.of_nat n2 - 1 + 1) * (Z.of_nat n2 - 1 + 1))) with (n2 * n2)%nat in H by lia.
  replace (Z.to_nat ((Z.of_nat n3 - 1 + 1) * (Z.of_nat n3 - 1 + 1))) with (n3 * n3)%nat in H by lia.
  set (c := fun u v d => C (M * M + u)%nat (M * M + v)%nat d).
  set (even := fused_even_mask (Z.to_nat (Z.of_nat n - 1))) in *.
  set (odd := fused_odd_mask (Z.to_nat (Z.of_nat n - 1))) in *.
  assert (Hmask : forall l k, (l < n)%nat -> (k < 2 * l + 1)%nat ->
     even (l * l + k)%nat = (if (l mod 2 =? 0)%nat then 1 else 0) /\ odd (l * l + k)%nat = (if (l mod 2 =? 1)%nat then 1 else 0)).
  { intros l k Hl Hk. apply fused_masks; [lia|assumption]. }
  assert (Hsplit : forall m x, valid m x -> (m <= n)%nat -> forall i l k f, (l < m)%nat -> (k < 2 * l + 1)%nat ->
     (if (fS x =? 2)%nat then fv x i 0%nat (l * l + k)%nat f else fv x i 0%nat (l * l + k)%nat f * even (l * l + k)%nat) = comp x i 0 l k f
     /\ (if (fS x =? 2)%nat then fv x i 1%nat (l * l + k)%nat f else fv x i 0%nat (l * l + k)%nat f * odd (l * l + k)%nat) = comp x i 1 l k f).
  { intros m x Hx Hm i l k f Hl Hk. rewrite !(comp_valid m x) by assumption. destruct (Nat.ltb_spec l m); [|lia].
    destruct (Hmask l k ltac:(lia) Hk) as [-> ->]. rewrite (Nat.eqb_sym 0), (Nat.eqb_sym 1).
    destruct (fS x =? 2)%nat; [auto|]. destruct (l mod 2 =? 0)%nat, (l mod 2 =? 1)%nat; split; ring. }
  assert (Hdup : forall m l k, (l < m)%nat -> (k < 2 * l + 1)%nat -> dup (Z.of_nat m - 1) (l * l + k) = l) by (intros; apply dup_degree; assumption).
  (* the four coupling paths *)
  set (path := fun p1 p2 i l k f => rsum n1 (fun l1 => rsum n2 (fun l2 =>
     kin1 P p1 l1 f * kin2 P p2 l2 f * kout P p1 p2 l f *
     coupled (fuse (2 * M + 1) c) (fun k1 => comp x1 (bidx (fB x1) B i) p1 l1 k1 f) (fun k2 => comp x2 (bidx (fB x2) B i) p2 l2 k2 f) l1 l2 l k))).
  assert (Hpath : forall i p l k f, (p < 2)%nat ->
     rsum 2 (fun p1 => rsum n1 (fun l1 => rsum 2 (fun p2 => rsum n2 (fun l2 =>
       if ((p1 + p2) mod 2 =? p)%nat
       then (kin1 P p1 l1 f * kin2 P p2 l2 f * kout P p1 p2 l f)
         * coupled (fuse (2 * M + 1) c) (fun k1 => comp x1 (bidx (fB x1) B i) p1 l1 k1 f) (fun k2 => comp x2 (bidx (fB x2) B i) p2 l2 k2 f) l1 l2 l k
       else 0))))
     = if (p =? 0)%nat then path 0%nat 0%nat i l k f + path 1%nat 1%nat i l k f else path 0%nat 1%nat i l k f + path 1%nat 0%nat i l k f).
  { intros i p l k f Hp.
    assert (Hz : forall p1, rsum n1 (fun l1 => rsum 2 (fun p2 => rsum n2 (fun l2 => if ((p1 + p2) mod 2 =? p)%nat
       then (kin1 P p1 l1 f * kin2 P p2 l2 f * kout P p1 p2 l f)
         * coupled (fuse (2 * M + 1) c) (fun k1 => comp x1 (bidx (fB x1) B i) p1 l1 k1 f) (fun k2 => comp x2 (bidx (fB x2) B i) p2 l2 k2 f) l1 l2 l k
       else 0))) = (if ((p1 + 0) mod 2 =? p)%nat then path p1 0%nat i l k f else 0) + (if ((p1 + 1) mod 2 =? p)%nat then path p1 1%nat i l k f else 0)).
    { intros p1. etransitivity; [apply rsum_ext; intros l1 _; apply rsum2|]. rewrite rsum_plus.
      f_equal; destruct (_ =? p)%nat; try reflexivity; apply rsum_zero; intros l1 _; apply rsum_zero; reflexivity. }
    rewrite rsum2, !Hz. change ((0 + 0) mod 2)%nat with 0%nat. change ((0 + 1) mod 2)%nat with 1%nat.
    change ((1 + 0) mod 2)%nat with 1%nat. change ((1 + 1) mod 2)%nat with 0%nat.
    destruct p as [|[|p]]; [| |lia]; cbn [Nat.eqb]; ring. }
  assert (Hvec : forall p1 p2 (X1 X2 : list nat -> nat -> nat -> R) kap i l k f,
     (forall l k, (l < n1)%nat -> (k < 2 * l + 1)%nat -> X1 (bidx (fB x1) B i) (l * l + k)%nat f = comp x1 (bidx (fB x1) B i) p1 l k f) ->
     (forall l k, (l < n2)%nat -> (k < 2 * l + 1)%nat -> X2 (bidx (fB x2) B i) (l * l + k)%nat f = comp x2 (bidx (fB x2) B i) p2 l k f) ->
     kap = kout P p1 p2 l f ->
     rsum (2 * M + 1) (fun u => rsum (2 * M + 1) (fun t =>
       rsum (2 * M + 1) (fun v =>
         rsum (n1 * n1) (fun d1 => X1 (bidx (fB x1) B i) d1 f * kin1 P p1 (dup (Z.of_nat n1 - 1) d1) f * C (M * M + u)%nat (M * M + v)%nat d1)
         * rsum (n2 * n2) (fun d2 => X2 (bidx (fB x2) B i) d2 f * kin2 P p2 (dup (Z.of_nat n2 - 1) d2) f * C (M * M + v)%nat (M * M + t)%nat d2))
       * kap * C (M * M + u)%nat (M * M + t)%nat (l * l + k)%nat)) = path p1 p2 i l k f).
  { intros p1 p2 X1 X2 kap i l k f HX1 HX2 ->.
    apply (path_sum n1 n2 (2 * M + 1) (fun d1 => X1 (bidx (fB x1) B i) d1 f * kin1 P p1 (dup (Z.of_nat n1 - 1) d1) f)
      (fun d2 => X2 (bidx (fB x2) B i) d2 f * kin2 P p2 (dup (Z.of_nat n2 - 1) d2) f)
      (fun l1 k1 => comp x1 (bidx (fB x1) B i) p1 l1 k1 f) (fun l2 k2 => comp x2 (bidx (fB x2) B i) p2 l2 k2 f)
      (fun l1 => kin1 P p1 l1 f) (fun l2 => kin2 P p2 l2 f) c).
    - intros l1 j Hl1 Hj. rewrite Hdup, HX1 by assumption. reflexivity.
    - intros l2 j Hl2 Hj. rewrite Hdup, HX2 by assumption. reflexivity. }
  assert (Hn1 : (n1 <= n)%nat) by lia. assert (Hn2 : (n2 <= n)%nat) by lia. assert (Hn3 : (n3 <= n)%nat) by lia.
  set (se := fun (x : feat) (i : list nat) (n f : nat) => if (fS x =? 2)%nat then fv x i 0%nat n f else fv x i 0%nat n f * even n).
  set (so := fun (x : feat) (i : list nat) (n f : nat) => if (fS x =? 2)%nat then fv x i 1%nat n f else fv x i 0%nat n f * odd n).
  destruct incl' eqn:EI; injection H as <-; cbn [fB fF fS fD fdt];
    (match goal with |- _ /\ valid n3 ?zz /\ _ => set (z := zz) end);
    (assert (Vz : valid n3 z) by (split; [auto|reflexivity]));
    do 2 (split; [auto|]); (split; [try fold incl'; rewrite EI; reflexivity|]); (split; [reflexivity|]); (split; [congruence|]); (split; [reflexivity|]);
    intros i p l k f Hp Hk Hs; destruct (comp_slot n3 z i p l k f Vz Hs) as [-> [Hl Hpar]];
    rewrite Hpath by assumption; change (fS z) with 2%nat in * || change (fS z) with 1%nat in *; unfold channel, par in *; cbn [Nat.eqb] in *;
    unfold z; cbn [fv].
  - destruct p as [|[|p]]; [| |lia]; cbn [Nat.eqb]; f_equal.
    + refine (Hvec 0%nat 0%nat (se x1) (se x2) (kout P 0 0 (dup (Z.of_nat n3 - 1) (l * l + k)) f) i l k f _ _ _); [intros; apply (Hsplit n1 x1 H1 Hn1); assumption|intros; apply (Hsplit n2 x2 H2 Hn2); assumption|rewrite Hdup by assumption; reflexivity].
    + refine (Hvec 1%nat 1%nat (so x1) (so x2) (kout P 1 1 (dup (Z.of_nat n3 - 1) (l * l + k)) f) i l k f _ _ _); [intros; apply (Hsplit n1 x1 H1 Hn1); assumption|intros; apply (Hsplit n2 x2 H2 Hn2); assumption|rewrite Hdup by assumption; reflexivity].
    + refine (Hvec 0%nat 1%nat (se x1) (so x2) (kout P 0 1 (dup (Z.of_nat n3 - 1) (l * l + k)) f) i l k f _ _ _); [intros; apply (Hsplit n1 x1 H1 Hn1); assumption|intros; apply (Hsplit n2 x2 H2 Hn2); assumption|rewrite Hdup by assumption; reflexivity].
    + refine (Hvec 1%nat 0%nat (so x1) (se x2) (kout P 1 0 (dup (Z.of_nat n3 - 1) (l * l + k)) f) i l k f _ _ _); [intros; apply (Hsplit n1 x1 H1 Hn1); assumption|intros; apply (Hsplit n2 x2 H2 Hn2); assumption|rewrite Hdup by assumption; reflexivity].
  - destruct (Hmask l k ltac:(lia) Hk) as [-> ->]. rewrite Hpar.
    destruct p as [|[|p]]; [| |lia]; cbn [Nat.eqb]; rewrite Rmult_1_r, Rmult_0_r, ?Rplus_0_r, ?Rplus_0_l; f_equal.
    + refine (Hvec 0%nat 0%nat (se x1) (se x2) (kout P 0 0 (dup (Z.of_nat n3 - 1) (l * l + k)) f) i l k f _ _ _); [intros; apply (Hsplit n1 x1 H1 Hn1); assumption|intros; apply (Hsplit n2 x2 H2 Hn2); assumption|rewrite Hdup by assumption; reflexivity].
    + refine (Hvec 1%nat 1%nat (so x1) (so x2) (kout P 1 1 (dup (Z.of_nat n3 - 1) (l * l + k)) f) i l k f _ _ _); [intros; apply (Hsplit n1 x1 H1 Hn1); assumption|intros; apply (Hsplit n2 x2 H2 Hn2); assumption|rewrite Hdup by assumption; reflexivity].
    + refine (Hvec 0%nat 1%nat (se x1) (so x2) (kout P 0 1 (dup (Z.of_nat n3 - 1) (l * l + k)) f) i l k f _ _ _); [intros; apply (Hsplit n1 x1 H1 Hn1); assumption|intros; apply (Hsplit n2 x2 H2 Hn2); assumption|rewrite Hdup by assumption; reflexivity].
    + refine (Hvec 1%nat 0%nat (so x1) (se x2) (kout P 1 0 (dup (Z.of_nat n3 - 1) (l * l + k)) f) i l k f _ _ _); [intros; apply (Hsplit n1 x1 H1 Hn1); assumption|intros; apply (Hsplit n2 x2 H2 Hn2); assumption|rewrite Hdup by assumption; reflexivity].
Qed.

End Fused.
