(** Proofs about [basis]. *)
Require Import String List Reals ZArith Bool Arith Lra Lia.
Require Import Verif.Base Verif.RSum Verif.LUT_Model Verif.LUT_Spec Verif.Radial_Model Verif.Rotations_Model Verif.Rotations_Spec Verif.Rotations_Proofs
  Verif.Irreps_Model Verif.Irreps_Spec Verif.Irreps_Proofs Verif.Irreps_Laws_Proofs Verif.Wrappers_Model Verif.Wrappers_Spec.
Import ListNotations.
Open Scope R_scope.

Lemma nth_map_combine : forall A B C (f : A * B -> C) x y d dx dy b, (b < length x)%nat -> length x = length y ->
  nth b (map f (combine x y)) d = f (nth b x dx, nth b y dy).
Proof.
  intros A B C f x. induction x as [|a x IH]; intros y d dx dy b Hb L; [cbn in Hb; lia|]. destruct y as [|c y]; [discriminate|].
  destruct b as [|b]; [reflexivity|]. cbn [combine map nth]. apply IH; cbn in *; lia.
Qed.
Lemma map_combine_length : forall A B C (f : A * B -> C) x y, length x = length y -> length (map f (combine x y)) = length x.
Proof. intros. rewrite map_length, combine_length. lia. Qed.
Lemma nth_map' : forall A B (f : A -> B) l d d' n, (n < length l)%nat -> nth n (map f l) d' = f (nth n l d).
Proof. intros A B f l d d' n H. rewrite (nth_indep _ d' (f d)) by (now rewrite map_length). apply map_nth. Qed.

Lemma size_length : forall v, length_of (vlist v) = size v.
Proof. intros [[x y] z]. unfold length_of, size. cbn. f_equal. ring. Qed.
Lemma size_nonneg : forall v, 0 <= size v.
Proof. intros v. apply sqrt_pos. Qed.
Lemma concat_vlist : forall rs : list vec, rs <> [] -> concat (map vlist rs) <> [].
Proof. intros [|[[x y] z] rs] H; [contradiction|]. discriminate. Qed.

Lemma scale_ones : forall A g (rs : list A), length g = length rs -> scale_rows g (map (fun _ => 1) rs) = g.
Proof.
  intros A g. induction g as [|r g IH]; intros rs L; destruct rs as [|a rs]; try discriminate; [reflexivity|]. unfold scale_rows in *. cbn [map combine]. f_equal.
  - cbn [fst snd]. rewrite <- (map_id r) at 2. apply map_ext. intros v. ring.
  - apply IH. cbn in L. lia.
Qed.
Lemma damp_ones : forall A out (rs : list A), length out = length rs -> map (fun p => damp (fst p) (snd p)) (combine out (map (fun _ => 1) rs)) = out.
Proof.
  intros A out. induction out as [|r out IH]; intros rs L; destruct rs as [|a rs]; try discriminate; [reflexivity|]. cbn [map combine]. f_equal.
  - cbn [fst snd]. destruct r as [|row rest]; [reflexivity|]. cbn [damp]. f_equal. rewrite <- (map_id rest) at 2. apply map_ext. intros q. rewrite <- (map_id q) at 2. apply map_ext. intros v. ring.
  - apply IH. cbn in L. lia.
Qed.

Lemma headings : forall rs, map (fun p => map (fun v => v / (if Rltb 0 (snd p) then snd p else 1)) (fst p)) (combine (map vlist rs) (map size rs)) = map vlist (map heading rs).
Proof.
  induction rs as [|r rs IH]; [reflexivity|]. cbn [map combine]. rewrite IH. f_equal. cbn [fst snd]. pose proof (size_nonneg r) as P. unfold heading, Rltb.
  destruct (Req_EM_T (size r) 0) as [E|N]; destruct (Rlt_dec 0 (size r)) as [G|G]; try lra; destruct r as [[x y] z].
  - cbn [vlist map]. unfold Rdiv. rewrite Rinv_1, !Rmult_1_r. reflexivity.
  - unfold unit_of. set (s := size (x, y, z)). cbn [vlist map times]. unfold Rdiv. rewrite !(Rmult_comm (/ s)). reflexivity.
Qed.

Definition outer_rows (p : list R * list R) : list (list R) := map (fun y => map (fun g => y * g) (snd p)) (fst p).
Definition combined (ylm g : list (list R)) (cut dmp : list R) : list (list (list R)) :=
  map (fun p => damp (fst p) (snd p)) (combine (map outer_rows (combine ylm (scale_rows g cut))) dmp).

Lemma basis_run : forall W tiny (w : W) rs L num radial angular cutoff rc rn damping cart g cut dmp ylm w',
  0 < tiny -> rs <> [] -> radial_values radial num rs g -> factor_values cutoff rs cut -> factor_values damping rs dmp ->
  angular w (map vlist (map heading rs)) L cart = (w', Ok ylm) -> length ylm = length rs -> (rc = true -> cutoff <> None) ->
  basis W tiny w 3 (map vlist rs) L num radial angular cutoff rc rn damping cart
  = (w', Ok (mkBasis (map (fun x => [x]) (combined ylm g cut dmp)) (if rc then Some cut else None) (if rn then Some (map size rs) else None))).
Proof.
  intros W tiny w rs L num radial angular cutoff rc rn damping cart g cut dmp ylm w' Ht Hne (Eg & Lg & Fg) Hcut Hdmp Ea Ly Hrc.
  unfold basis. cbn [Nat.eqb negb]. assert (G : rc && (match cutoff with None => true | Some _ => false end) = false).
  { destruct rc; [|reflexivity]. destruct cutoff; [reflexivity|]. exfalso. now apply Hrc. }
  rewrite G. rewrite norm_ok by (try exact Ht; now apply concat_vlist). cbn [bind]. rewrite map_map.
  rewrite (map_ext (fun x => length_of (vlist x)) size) by apply size_length. rewrite Eg. cbn [bind].
  assert (Ecut : match cutoff with
      | Some cutoff_fn => bind (cutoff_fn (map size rs)) (fun cut => Ok (map size rs, scale_rows g cut, cut))
      | None => Ok (map size rs, g, map (fun _ => 1) (map size rs)) end = Ok (map size rs, scale_rows g cut, cut)).
  { destruct cutoff as [f|]; cbn in Hcut; [destruct Hcut as [-> _]; reflexivity|]. subst cut. rewrite scale_ones by exact Lg. now rewrite map_map. }
  rewrite Ecut. rewrite headings, Ea. cbn [bind]. unfold combined. f_equal.
  assert (Lc : length cut = length rs) by (destruct cutoff; cbn in Hcut; [tauto|subst cut; apply map_length]).
  assert (Lo : length (map outer_rows (combine ylm (scale_rows g cut))) = length rs).
  { rewrite map_combine_length; [exact Ly|]. unfold scale_rows. rewrite map_combine_length; lia. }
  fold outer_rows in *. change (fun p : list R * list R => map (fun y => map (fun g0 => y * g0) (snd p)) (fst p)) with outer_rows.
  assert (Ed : match damping with
      | Some damping_fn => bind (damping_fn (map size rs)) (fun d => Ok (map (fun p => damp (fst p) (snd p)) (combine (map outer_rows (combine ylm (scale_rows g cut))) d)))
      | None => Ok (map outer_rows (combine ylm (scale_rows g cut))) end
    = Ok (map (fun p => damp (fst p) (snd p)) (combine (map outer_rows (combine ylm (scale_rows g cut))) dmp))).
  { destruct damping as [f|]; cbn in Hdmp; [destruct Hdmp as [-> _]; reflexivity|]. subst dmp. now rewrite damp_ones by exact Lo. }
  rewrite Ed. cbn [bind]. f_equal. f_equal. destruct rc; [|reflexivity]. destruct cutoff; [reflexivity|]. exfalso. now apply Hrc.
Qed.

Lemma factor_length : forall f rs c, factor_values f rs c -> length c = length rs.
Proof. intros [f|] rs c H; cbn in H; [tauto|]. subst c. apply map_length. Qed.

Lemma combined_shape : forall n N K ylm g cut dmp, length ylm = n -> Forall (fun y => length y = K) ylm -> length g = n -> Forall (fun r => length r = N) g ->
  length cut = n -> length dmp = n ->
  length (combined ylm g cut dmp) = n /\ Forall (fun m => length m = K /\ Forall (fun r => length r = N) m) (combined ylm g cut dmp).
Proof.
  intros n N K ylm g cut dmp L1 F1 L2 F2 L3 L4. unfold combined.
  assert (Ls : length (scale_rows g cut) = n) by (unfold scale_rows; rewrite map_combine_length; lia).
  assert (Lo : length (map outer_rows (combine ylm (scale_rows g cut))) = n) by (rewrite map_combine_length; lia).
  split; [rewrite map_combine_length; lia|]. apply Forall_forall. intros m Hm. apply in_map_iff in Hm as ([o d] & <- & Ho). apply in_combine_l in Ho.
  apply in_map_iff in Ho as ([y r] & <- & Hyr). pose proof (in_combine_l _ _ _ _ Hyr) as Hy. pose proof (in_combine_r _ _ _ _ Hyr) as Hr.
  rewrite Forall_forall in F1, F2. apply F1 in Hy. unfold scale_rows in Hr. apply in_map_iff in Hr as ([r0 c] & <- & Hr). apply in_combine_l in Hr. apply F2 in Hr. cbn [fst snd].
  unfold outer_rows. cbn [fst snd]. destruct y as [|y0 ys]; cbn [map damp]; [split; [exact Hy|constructor]|]. split.
  - cbn [length]. rewrite !map_length. exact Hy.
  - constructor; [now rewrite !map_length|]. apply Forall_forall. intros q Hq. apply in_map_iff in Hq as (q' & <- & Hq'). rewrite map_length.
    apply in_map_iff in Hq' as (y' & <- & _). now rewrite !map_length.
Qed.

Lemma combined_entry : forall n N K ylm g cut dmp b i f, length ylm = n -> Forall (fun y => length y = K) ylm -> length g = n -> Forall (fun r => length r = N) g ->
  length cut = n -> length dmp = n -> (b < n)%nat -> (i < K)%nat -> (f < N)%nat ->
  nth f (nth i (nth b (combined ylm g cut dmp) []) []) 0 = at2 ylm b i * at2 g b f * nth b cut 0 * (if (i =? 0)%nat then 1 else nth b dmp 0).
Proof.
  intros n N K ylm g cut dmp b i f L1 F1 L2 F2 L3 L4 Hb Hi Hf. unfold combined.
  assert (Ls : length (scale_rows g cut) = n) by (unfold scale_rows; rewrite map_combine_length; lia).
  assert (Lo : length (map outer_rows (combine ylm (scale_rows g cut))) = n) by (rewrite map_combine_length; lia).
  rewrite (nth_map_combine _ _ _ _ _ _ [] [] 0) by lia. cbn [fst snd].
  rewrite (nth_map_combine _ _ _ _ _ _ [] [] []) by lia. unfold outer_rows. cbn [fst snd].
  unfold scale_rows. rewrite (nth_map_combine _ _ _ _ _ _ [] [] 0) by lia. cbn [fst snd]. unfold at2.
  assert (Ky : length (nth b ylm []) = K) by (rewrite Forall_forall in F1; apply F1, nth_In; lia).
  assert (Ng : length (nth b g []) = N) by (rewrite Forall_forall in F2; apply F2, nth_In; lia).
  destruct (nth b ylm []) as [|y0 ys]; [cbn in Ky; lia|]. cbn [map damp]. destruct i as [|i]; cbn [nth Nat.eqb].
  - rewrite (nth_map' _ _ _ _ 0) by (rewrite map_length; lia). rewrite (nth_map' _ _ _ _ 0) by lia. ring.
  - rewrite map_map. rewrite (nth_map' _ _ _ _ 0) by (cbn in Ky; lia). rewrite (nth_map' _ _ _ _ 0) by (rewrite !map_length; lia).
    rewrite (nth_map' _ _ _ _ 0) by (rewrite map_length; lia). rewrite (nth_map' _ _ _ _ 0) by lia. ring.
Qed.

(** * Rotation of the vectors *)
Lemma size_act : forall r m, orthogonal m -> size (act r m) = size r.
Proof. intros r m Hm. unfold size. now rewrite dot_act. Qed.
Lemma heading_act : forall r m, orthogonal m -> heading (act r m) = act (heading r) m.
Proof.
  intros r m Hm. unfold heading. rewrite size_act by exact Hm. destruct (Req_EM_T (size r) 0); [reflexivity|].
  unfold unit_of. rewrite size_act by exact Hm. apply times_act.
Qed.
