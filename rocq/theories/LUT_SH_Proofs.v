(** The spherical harmonics table (C16). *)
Require Import String List ZArith Bool Lia Permutation.
Require Import Verif.Base Verif.Common_Model Verif.Common_Spec Verif.Common_Proofs Verif.Common_Enum_Proofs
  Verif.LUT_Model Verif.LUT_Spec Verif.LUT_Proofs Verif.LUT_CG_Proofs Verif.LUT_Mono_Proofs.
Import ListNotations.

Lemma mono_nodup : forall l, NoDup (monomial_powers_of_degree l).
Proof. intros. apply NoDup_multicombinations. Qed.

Lemma mono_in : forall l p, In p (monomial_powers_of_degree l) <-> length p = 3 /\ sum_list p = l.
Proof. intros. unfold monomial_powers_of_degree. apply in_multicombinations. lia. Qed.

Lemma mono_sum : forall l p, In p (monomial_powers_of_degree l) -> sum_list p = l.
Proof. intros l p H. now apply mono_in in H. Qed.

Notation rs := (rowstart monomial_powers_of_degree).

Lemma num_car_rowstart : forall L, num_car L = rs (L + 1).
Proof.
  intros L. unfold num_car. rewrite total_cartesian_is_sum. unfold rowstart. apply sum_nat_ext.
  intros i _. symmetry. apply length_monomials.
Qed.

Lemma start_row_car : forall l, start_row num_car l = rs l.
Proof. intros [|l]; [reflexivity|]. simpl start_row. rewrite num_car_rowstart. f_equal. lia. Qed.

Lemma monos_prefix : forall (powers : nat -> list (list nat)) a b i, a <= b -> i < rowstart powers a ->
  nth i (monos powers a) [] = nth i (monos powers b) [].
Proof.
  intros powers a b i Hab Hi. unfold monos. replace b with (a + (b - a)) by lia. rewrite seq_app, flat_map_app.
  rewrite app_nth1; [reflexivity|].
  pose proof (length_flat_powers powers a 0) as H. unfold rowstart at 1 in H. simpl in H. lia.
Qed.

Definition sq (l : nat) : nat := l * l.
Lemma sq_mono : forall a b, a <= b -> sq a <= sq b.
Proof. intros. unfold sq. nia. Qed.

Lemma NoDup_zrange : forall a b, NoDup (zrange a b).
Proof.
  intros a b. unfold zrange. apply NoDup_map_inj; [|apply seq_NoDup]. intros. lia.
Qed.

Definition sh_inside := inside monomial_powers_of_degree sq.

Lemma sh_inside_iff : forall L q, sh_inside L q = in2 (num_car L) (num_sph L) q.
Proof.
  intros L q. unfold sh_inside, inside. rewrite num_car_rowstart. reflexivity.
Qed.

Lemma sh_inside_mono : forall L L' q, L <= L' -> sh_inside L q = true -> sh_inside L' q = true.
Proof.
  intros L L' q H. unfold sh_inside, inside. rewrite !in2_iff.
  pose proof (rowstart_mono monomial_powers_of_degree (L + 1) (L' + 1) ltac:(lia)).
  pose proof (sq_mono (L + 1) (L' + 1) ltac:(lia)). lia.
Qed.

Lemma combine_map2 : forall X Y Z (f : X -> Y) (g : X -> Z) l,
  combine (map f l) (map g l) = map (fun x => (f x, g x)) l.
Proof. intros X Y Z f g l; induction l as [|a l IH]; simpl; [reflexivity|]. now rewrite IH. Qed.

Lemma map_flat_map : forall X Y Z (f : Y -> Z) (g : X -> list Y) l,
  map f (flat_map g l) = flat_map (fun x => map f (g x)) l.
Proof. intros X Y Z f g l; induction l as [|a l IH]; simpl; [reflexivity|]. now rewrite map_app, IH. Qed.

Section SH.
Variable A : Type.
Variable zero : A.
Variable is_zero : A -> bool.
Hypothesis is_zero_iff : forall a, is_zero a = true <-> a = zero.
Variable sph_terms : nat -> Z -> list (list nat * A).
Hypothesis sph_homogeneous : forall l m p v, (Z.abs m <= Z.of_nat l)%Z -> In (p, v) (sph_terms l m) ->
  length p = 3 /\ sum_list p = l.
Hypothesis sph_nodup : forall l m, (Z.abs m <= Z.of_nat l)%Z -> NoDup (map fst (sph_terms l m)).

Definition sh_cols (l : nat) : list (nat * list (list nat * A)) :=
  map (fun m => (lm_index l m, sph_terms l m)) (zrange (- Z.of_nat l) (Z.of_nat l + 1)).

Lemma in_sh_cols : forall l c terms, In (c, terms) (sh_cols l) <->
  exists m, (Z.abs m <= Z.of_nat l)%Z /\ c = lm_index l m /\ terms = sph_terms l m.
Proof.
  intros l c terms. unfold sh_cols. rewrite in_map_iff. split.
  - intros [m [E H]]. apply in_zrange in H. injection E as <- <-. exists m. split; [lia|auto].
  - intros [m [H [-> ->]]]. exists m. split; [reflexivity|]. apply in_zrange. lia.
Qed.


Lemma sh_cols_bounds : forall l c terms, In (c, terms) (sh_cols l) -> sq l <= c < sq (l + 1).
Proof.
  intros l c terms H. apply in_sh_cols in H. destruct H as [m [Hm [-> _]]]. unfold sq, lm_index.
  split; [apply Nat2Z.inj_le|apply Nat2Z.inj_lt]; rewrite Z2Nat.id by lia; nia.
Qed.


Lemma sh_cols_nodup : forall l, NoDup (map fst (sh_cols l)).
Proof.
  intros l. unfold sh_cols. rewrite map_map. simpl. apply NoDup_map_inj; [|apply NoDup_zrange].
  intros a b Ha Hb E. apply in_zrange in Ha. apply in_zrange in Hb.
  apply lm_index_inj in E; [apply E|lia|lia].
Qed.

Lemma sh_terms_ok : forall l c terms p v, In (c, terms) (sh_cols l) -> In (p, v) terms ->
  In p (monomial_powers_of_degree l).
Proof.
  intros l c terms p v H Hp. apply in_sh_cols in H. destruct H as [m [Hm [_ ->]]].
  apply mono_in. now apply sph_homogeneous with m v.
Qed.

Lemma sh_terms_nodup : forall l c terms, In (c, terms) (sh_cols l) -> NoDup (map fst terms).
Proof. intros l c terms H. apply in_sh_cols in H. destruct H as [m [Hm [_ ->]]]. now apply sph_nodup. Qed.

Definition sh_entries_range := entries_range A monomial_powers_of_degree sh_cols.
Definition sh_cold := cold A zero monomial_powers_of_degree sh_cols.

Definition sh_good (L : nat) (t : sh_table A) : Prop :=
  sh_max A t = L /\ (forall q, sh_inside L q = true -> sh_cm A t q = sh_cold L q) /\
  (forall i, i < rs (L + 1) -> sh_ls A t i = nth i (monos monomial_powers_of_degree (L + 1)) []).

Definition sh_part (d : Z) (L : nat) (t : sh_table A) : Prop :=
  (forall q, sh_inside L q = true ->
     sh_cm A t q = puts A key2 eq2 (sh_entries_range 0 (Z.to_nat (d + 1))) (zeros A zero) q) /\
  (forall i, i < rs (Z.to_nat (d + 1)) ->
     sh_ls A t i = nth i (monos monomial_powers_of_degree (L + 1)) []).

Definition sh_valid (c : sh_file A) (d : Z) : Prop :=
  ((shf_max A c < 0)%Z /\ d = (-1)%Z) \/
  exists L, d = Z.of_nat L /\ shf_max A c = d /\
    (forall k v, In (k, v) (shf_entries A c) -> in2 (num_car L) (num_sph L) k = true) /\
    sh_good L (mkSH A L (puts A key2 eq2 (shf_entries A c) (zeros A zero)) (fun i => nth i (shf_ls A c) [])).



Lemma sh_cold_restrict : forall L L' q, L <= L' -> sh_inside L q = true -> sh_cold L' q = sh_cold L q.
Proof.
  apply (cold_restrict A zero monomial_powers_of_degree mono_nodup mono_sum sh_cols sq sq_mono sh_cols_bounds sh_cols_nodup sh_terms_ok sh_terms_nodup).
Qed.

Lemma sh_cold_outside : forall L q, sh_inside L q = false -> sh_cold L q = zero.
Proof.
  apply (cold_outside A zero monomial_powers_of_degree mono_nodup mono_sum sh_cols sq sq_mono sh_cols_bounds sh_cols_nodup sh_terms_ok sh_terms_nodup).
Qed.

Lemma sh_init_ok : forall L, sh_part (-1) L (sh_init_empty A zero L).
Proof.
  intros L. split; [reflexivity|]. intros i Hi. simpl in Hi. unfold rowstart in Hi. simpl in Hi. lia.
Qed.

Lemma sh_load_ok : forall L c d, sh_valid c d ->
  exists t, sh_load A zero L c = Ok (d, t) /\ ((Z.of_nat L <= d)%Z -> sh_good L t)
    /\ ((d < Z.of_nat L)%Z -> sh_part d L t).
Proof.
  intros L c d [[Hneg ->]|[Lc [-> [Hmax [Hin [_ [Hcm Hls]]]]]]].
  - unfold sh_load. destruct (Z.ltb_spec (shf_max A c) 0); [|lia].
    exists (sh_init_empty A zero L). split; [reflexivity|]. split; [lia|]. intros _. apply sh_init_ok.
  - unfold sh_load. rewrite Hmax. destruct (Z.ltb_spec (Z.of_nat Lc) 0); [lia|].
    rewrite Nat2Z.id. rewrite scatter_ok by assumption. simpl bind. simpl in Hcm, Hls.
    destruct (Z.leb_spec (Z.of_nat L) (Z.of_nat Lc)) as [Hle|Hlt].
    + eexists. split; [reflexivity|]. split; [|lia]. intros _. split; [reflexivity|]. split; simpl.
      * intros q Hq. rewrite Hcm by (apply sh_inside_mono with L; [lia|assumption]).
        apply sh_cold_restrict; [lia|assumption].
      * intros i Hi. pose proof (rowstart_mono monomial_powers_of_degree (L + 1) (Lc + 1) ltac:(lia)).
        rewrite Hls by lia. symmetry. apply monos_prefix; [lia|assumption].
    + eexists. split; [reflexivity|]. split; [lia|]. intros _. 
      replace (Z.to_nat (Z.of_nat Lc + 1)) with (Lc + 1) by lia || idtac.
      split; simpl.
      * intros q Hq. replace (Z.to_nat (Z.of_nat Lc + 1)) with (Lc + 1) by lia.
        change (puts A key2 eq2 (sh_entries_range 0 (Lc + 1)) (zeros A zero) q) with (sh_cold Lc q).
        rewrite <- sh_inside_iff. destruct (sh_inside Lc q) eqn:E; [now apply Hcm|].
        symmetry. now apply sh_cold_outside.
      * intros i Hi. replace (Z.to_nat (Z.of_nat Lc + 1)) with (Lc + 1) in Hi by lia.
        rewrite num_car_rowstart. destruct (Nat.ltb_spec i (rs (Lc + 1))); [|lia].
        rewrite Hls by assumption. apply monos_prefix; [lia|assumption].
Qed.



Lemma sh_extend_ok : forall s d L t, valid_schedule s -> (-1 <= d < Z.of_nat L)%Z -> sh_part d L t ->
  exists t', sh_extend A sph_terms s L (Z.to_nat (d + 1)) t = Ok t' /\ sh_good L t'.
Proof.
  intros s d L t Hs Hd [Hcm Hls]. unfold sh_extend. set (lstart := Z.to_nat (d + 1)) in *.
  rewrite start_row_car.
  pose proof (number_monomials_spec monomial_powers_of_degree mono_nodup mono_sum lstart L (sh_ls A t) ltac:(lia)) as Hn.
  destruct (number_monomials monomial_powers_of_degree lstart L (rs lstart) (sh_ls A t)) as [[i0 dict] ls'].
  destruct Hn as [Hdict Hls'].
  rewrite pool_map_ok by assumption. simpl bind. rewrite combine_map2.
  assert (Ecols : map (fun lm => (lm_index (fst lm) (snd lm), sph_terms (fst lm) (snd lm))) (degrees_and_orders lstart L)
     = flat_map sh_cols (seq lstart (L + 1 - lstart))).
  { unfold degrees_and_orders. rewrite map_flat_map. apply flat_map_ext. intros l. unfold sh_cols.
    rewrite map_map. reflexivity. }
  rewrite Ecols.
  rewrite (all_entries_ok A monomial_powers_of_degree).
  2:{ intros c terms p v Hc Hp. apply in_flat_map in Hc. destruct Hc as [l [Hl Hc]]. apply in_seq in Hl.
      apply (Hdict l); [lia|]. now apply sh_terms_ok with c terms v. }
  simpl bind. rewrite flat_flat.
  change (flat_map _ (seq lstart (L + 1 - lstart))) with (sh_entries_range lstart (L + 1 - lstart)).
  rewrite scatter_ok.
  2:{ intros [r c] v H. apply entries_range_in in H. destruct H as [l [Hl H]].
      rewrite <- sh_inside_iff.
      apply (entries_inside A monomial_powers_of_degree mono_nodup mono_sum sh_cols sq sq_mono sh_cols_bounds sh_cols_nodup sh_terms_ok sh_terms_nodup l L r c v); [lia|assumption]. }
  simpl bind. eexists. split; [reflexivity|]. split; [reflexivity|]. split; simpl.
  - intros q Hq. apply (extend_cold A zero monomial_powers_of_degree mono_nodup mono_sum sh_cols sq sq_mono sh_cols_bounds sh_cols_nodup sh_terms_ok sh_terms_nodup); [lia|]. now apply Hcm.
  - intros i Hi. rewrite Hls' by assumption. destruct (Nat.leb_spec (rs lstart) i); [reflexivity|]. now apply Hls.
Qed.

Lemma sh_compress_ok : forall L t, sh_good L t -> sh_valid (sh_compress A is_zero t) (Z.of_nat L).
Proof.
  intros L t [HL [Hcm Hls]]. right. exists L. split; [reflexivity|]. simpl. rewrite HL. split; [reflexivity|]. split.
  - intros k v H. apply nonzeros_in in H. apply in_keys2. apply H.
  - split; [reflexivity|]. split; simpl.
    + intros q Hq. rewrite (nonzeros_scatter A zero is_zero is_zero_iff key2 eq2 eq2_iff); [now apply Hcm|].
      apply in_keys2. now rewrite <- sh_inside_iff.
    + intros i Hi. rewrite num_car_rowstart. rewrite (nth_indep _ [] (sh_ls A t 0)) by (rewrite map_length, seq_length; assumption).
      rewrite (map_nth (sh_ls A t)), seq_nth by assumption. now apply Hls.
Qed.

Lemma sh_valid_deg : forall c d, sh_valid c d -> (-1 <= d)%Z.
Proof. intros c d [[_ ->]|[L [-> _]]]; lia. Qed.

Lemma sh_valid_fun : forall c d d', sh_valid c d -> sh_valid c d' -> d = d'.
Proof. intros c d d' [[H ->]|[L [-> [H _]]]] [[H' ->]|[L' [-> [H' _]]]]; try lia. Qed.

Definition sh_run_ok := run_ok (sh_file A) (sh_table A) (sh_load A zero) (sh_init_empty A zero) schedule
  (sh_extend A sph_terms) (sh_compress A is_zero) sh_valid sh_good sh_part valid_schedule
  sh_valid_deg sh_valid_fun sh_load_ok sh_init_ok sh_extend_ok sh_compress_ok.
End SH.
