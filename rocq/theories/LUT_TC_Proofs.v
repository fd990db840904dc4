(** The tensor conversion table (C18). *)
Require Import String List ZArith Bool Lia Permutation.
Require Import Verif.Base Verif.Common_Model Verif.LUT_Model Verif.LUT_Spec Verif.LUT_Proofs Verif.LUT_WD_Proofs.
Import ListNotations.

Section TC.
Variable M : Type.
Variable conv : nat -> M * M.

Definition tc_good (L : nat) (t : tc_table M) : Prop :=
  tc_max M t = L /\ tc_s2t M t = map (fun l => fst (conv l)) (seq 0 (L + 1)) /\
  tc_t2s M t = map (fun l => snd (conv l)) (seq 0 (L + 1)).

Definition tc_part (d : Z) (L : nat) (t : tc_table M) : Prop :=
  tc_max M t = L /\ tc_s2t M t = map (fun l => fst (conv l)) (seq 0 (Z.to_nat (d + 1))) /\
  tc_t2s M t = map (fun l => snd (conv l)) (seq 0 (Z.to_nat (d + 1))).

Definition tc_valid (c : tc_file M) (d : Z) : Prop :=
  ((tcf_max M c < 0)%Z /\ d = (-1)%Z) \/
  exists L, d = Z.of_nat L /\ tcf_max M c = d /\
    forall l, l <= L -> nth_error (tcf_s2t M c) l = Some (fst (conv l)) /\ nth_error (tcf_t2s M c) l = Some (snd (conv l)).

Lemma tc_init_ok : forall L, tc_part (-1) L (tc_init_empty M L).
Proof. intros L. split; [reflexivity|]. split; reflexivity. Qed.

Lemma tc_load_ok : forall L c d, tc_valid c d ->
  exists t, tc_load M L c = Ok (d, t) /\ ((Z.of_nat L <= d)%Z -> tc_good L t)
    /\ ((d < Z.of_nat L)%Z -> tc_part d L t).
Proof.
  intros L c d [[Hneg ->]|[Lc [-> [Hmax Hb]]]].
  - unfold tc_load. destruct (Z.ltb_spec (tcf_max M c) 0); [|lia].
    exists (tc_init_empty M L). split; [reflexivity|]. split; [lia|]. intros _. apply tc_init_ok.
  - unfold tc_load. rewrite Hmax. destruct (Z.ltb_spec (Z.of_nat Lc) 0); [lia|]. rewrite Nat2Z.id.
    rewrite (rmapM_ok _ _ _ conv).
    2:{ intros l Hl. apply in_seq in Hl. destruct (Hb l ltac:(lia)) as [E1 E2]. unfold get_key.
        rewrite E1. simpl. rewrite E2. simpl. now destruct (conv l). }
    simpl bind. eexists. split; [reflexivity|]. split.
    + intros Hle. replace (Nat.min L Lc) with L by lia. split; [reflexivity|]. simpl. now rewrite !map_map.
    + intros Hlt. replace (Nat.min L Lc) with Lc by lia. unfold tc_part.
      replace (Z.to_nat (Z.of_nat Lc + 1)) with (Lc + 1) by lia. split; [reflexivity|]. simpl. now rewrite !map_map.
Qed.

Lemma tc_extend_ok : forall s d L t, valid_schedule s -> (-1 <= d < Z.of_nat L)%Z -> tc_part d L t ->
  exists t', tc_extend M conv s L (Z.to_nat (d + 1)) t = Ok t' /\ tc_good L t'.
Proof.
  intros s d L t Hs Hd [HL [H1 H2]]. unfold tc_extend. rewrite pool_map_ok by assumption. simpl bind.
  eexists. split; [reflexivity|]. split; [assumption|]. simpl. rewrite H1, H2, !map_map, <- !map_app, <- !seq_app.
  replace (Z.to_nat (d + 1) + (L + 1 - Z.to_nat (d + 1))) with (L + 1) by lia. auto.
Qed.

Lemma tc_unpack_ok : forall L t, tc_good L t -> tc_valid (tc_unpack M t) (Z.of_nat L).
Proof.
  intros L t [HL [H1 H2]]. right. exists L. split; [reflexivity|]. unfold tc_unpack. rewrite HL, H1, H2. simpl. split; [reflexivity|].
  rewrite !firstn_all2 by (rewrite map_length, seq_length; lia). intros l Hl.
  rewrite !nth_error_map, (nth_error_nth' _ 0) by (rewrite seq_length; lia). rewrite seq_nth by lia. auto.
Qed.

Lemma tc_valid_deg : forall c d, tc_valid c d -> (-1 <= d)%Z.
Proof. intros c d [[_ ->]|[L [-> _]]]; lia. Qed.

Lemma tc_valid_fun : forall c d d', tc_valid c d -> tc_valid c d' -> d = d'.
Proof. intros c d d' [[H ->]|[L [-> [H _]]]] [[H' ->]|[L' [-> [H' _]]]]; try lia. Qed.

Definition tc_run_ok := run_ok (tc_file M) (tc_table M) (tc_load M) (tc_init_empty M) schedule
  (tc_extend M conv) (tc_unpack M) tc_valid tc_good tc_part valid_schedule
  tc_valid_deg tc_valid_fun tc_load_ok tc_init_ok tc_extend_ok tc_unpack_ok.
End TC.
