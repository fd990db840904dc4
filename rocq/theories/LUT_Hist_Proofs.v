(** Request histories against the cold computation (C15-C19). *)
Require Import String List ZArith Bool Lia Permutation.
Require Import Verif.Base Verif.Common_Model Verif.LUT_Model Verif.LUT_Spec Verif.LUT_Proofs.
Import ListNotations.

Section Hist.
Variables C T : Type.
Variable load : nat -> C -> result (Z * T).
Variable init : nat -> T.
Variable extend : schedule -> nat -> nat -> T -> result T.
Variable compress : T -> C.
Variable valid : C -> Z -> Prop.
Variable good : nat -> T -> Prop.
Variable part : Z -> nat -> T -> Prop.
Hypothesis Hdeg : forall c d, valid c d -> (-1 <= d)%Z.
Hypothesis Hfun : forall c d d', valid c d -> valid c d' -> d = d'.
Hypothesis Hload : forall L c d, valid c d ->
  exists t, load L c = Ok (d, t) /\ ((Z.of_nat L <= d)%Z -> good L t) /\ ((d < Z.of_nat L)%Z -> part d L t).
Hypothesis Hinit : forall L, part (-1) L (init L).
Hypothesis Hext : forall s d L t, valid_schedule s -> (-1 <= d < Z.of_nat L)%Z -> part d L t ->
  exists t', extend s L (Z.to_nat (d + 1)) t = Ok t' /\ good L t'.
Hypothesis Hcomp : forall L t, good L t -> valid (compress t) (Z.of_nat L).
Variable same : nat -> T -> T -> Prop.
Hypothesis Hsame : forall L t t', good L t -> good L t' -> same L t t'.
Variable degree : C -> Z.
Hypothesis Hdegree : forall c d, valid c d -> d = Z.max (-1) (degree c).

Let gen := generate C T load init schedule extend compress.
Let go := run C T load init schedule extend compress.
Let wok := world_ok C valid.

Lemma empty_ok : wok empty_world.
Proof. split; [discriminate|reflexivity]. Qed.

Lemma cold_ok : forall L, (0 <= L)%Z -> exists t, cold_result gen L = Ok t /\ good (Z.to_nat L) t.
Proof.
  intros L HL. unfold cold_result, gen, generate, check_degree. destruct (Z.ltb_spec L 0); [lia|].
  unfold load_lookup_table_from_disk. simpl.
  destruct (Z.leb_spec (Z.of_nat (Z.to_nat L)) (-1)); [lia|].
  destruct (Hext None (-1)%Z (Z.to_nat L) (init (Z.to_nat L)) I ltac:(lia) (Hinit _)) as [t' [E Hg]].
  simpl in E. rewrite E. exists t'. auto.
Qed.

Lemma cold_negative : forall L, (L < 0)%Z -> cold_result gen L = Err ValueError.
Proof. intros L HL. unfold cold_result, gen, generate, check_degree. destruct (Z.ltb_spec L 0); [reflexivity|lia]. Qed.

Lemma cold_Ok : forall L t, cold_result gen L = Ok t -> (0 <= L)%Z /\ good (Z.to_nat L) t.
Proof.
  intros L t E. destruct (Z.ltb_spec L 0) as [H|H]; [rewrite cold_negative in E by lia; discriminate|].
  destruct (cold_ok L H) as [t' [E' Hg]]. rewrite E in E'. injection E' as <-. auto.
Qed.

Lemma fresh_ok : forall w, fresh_install gen compress w -> wok w.
Proof.
  intros w [Hf Hp]. split; [intros p f E; rewrite Hf in E; discriminate|].
  destruct Hp as [[e [-> He]]|[L [t [E ->]]]].
  { destruct He as [<-|[<-|[<-|[<-|[]]]]]; reflexivity. }
  destruct (cold_Ok L t E) as [_ Hg]. eauto.
Qed.

Lemma reply_as_cold : forall e r, reply_ok T schedule good e r -> as_cold same (cold_result gen) e r.
Proof.
  intros [L s o|p] r; simpl.
  - destruct (Z.ltb_spec L 0) as [HL|HL].
    + intros ->. split; [assumption|]. split; [reflexivity|]. now apply cold_negative.
    + intros [t [-> Hg]]. destruct (cold_ok L HL) as [t0 [E Hg0]]. exists t0. auto.
  - intros ->. exact I.
Qed.

Lemma uninterrupted_ok : forall h, Forall uninterrupted h -> Forall (event_ok schedule valid_schedule) h.
Proof. intros h H. eapply Forall_impl; [|exact H]. now intros [L s o|p]. Qed.

Theorem transparent : forall w h, fresh_install gen compress w -> Forall uninterrupted h ->
  Forall2 (as_cold same (cold_result gen)) h (snd (go w h)).
Proof.
  intros w h Hw Hh. apply fresh_ok in Hw.
  pose proof (run_ok C T load init schedule extend compress valid good part valid_schedule
    Hdeg Hfun Hload Hinit Hext Hcomp h w Hw (uninterrupted_ok h Hh)) as H.
  fold go in H. destruct (go w h) as [w' rs]. destruct H as [_ [H _]]. simpl.
  clear - H Hinit Hext Hsame. revert H. revert rs. induction h as [|e h IH]; intros rs H; inversion H; subst; constructor.
  - now apply reply_as_cold.
  - now apply IH.
Qed.

Lemma run_app : forall h1 h2 w, fst (go w (h1 ++ h2)) = fst (go (fst (go w h1)) h2).
Proof.
  induction h1 as [|e h1 IH]; intros h2 w; [reflexivity|]. simpl.
  unfold go in *. simpl. destruct (step C T load init schedule extend compress w e) as [w1 r].
  specialize (IH h2 w1).
  destruct (run C T load init schedule extend compress w1 (h1 ++ h2)).
  destruct (run C T load init schedule extend compress w1 h1). exact IH.
Qed.

Theorem never_decreases : forall w h1 h2 p d, fresh_install gen compress w ->
  Forall uninterrupted (h1 ++ h2) -> stored_degree degree (fst (go w h1)) p = Some d ->
  exists d', stored_degree degree (fst (go w (h1 ++ h2))) p = Some d' /\ (Z.max (-1) d <= Z.max (-1) d')%Z.
Proof.
  intros w h1 h2 p d Hw Hh Hd. apply fresh_ok in Hw. apply uninterrupted_ok in Hh.
  apply Forall_app in Hh. destruct Hh as [Hh1 Hh2]. rewrite run_app.
  pose proof (run_ok C T load init schedule extend compress valid good part valid_schedule
    Hdeg Hfun Hload Hinit Hext Hcomp h1 w Hw Hh1) as H1. fold go in H1.
  destruct (go w h1) as [w1 r1]. destruct H1 as [Hw1 _]. simpl in *.
  pose proof (run_ok C T load init schedule extend compress valid good part valid_schedule
    Hdeg Hfun Hload Hinit Hext Hcomp h2 w1 Hw1 Hh2) as H2. fold go in H2.
  destruct (go w1 h2) as [w2 r2]. destruct H2 as [Hw2 [_ [Hm Hn]]]. simpl.
  unfold stored_degree in *. destruct (files w1 p) as [[c|k]|] eqn:E1; try discriminate. injection Hd as <-.
  specialize (Hn p ltac:(congruence)). destruct Hw1 as [Hf1 _]. destruct Hw2 as [Hf2 _].
  destruct (files w2 p) as [f|] eqn:E2; [|congruence].
  destruct (Hf1 p _ E1) as [c1 [d1 [Q1 V1]]]. injection Q1 as <-.
  destruct (Hf2 p _ E2) as [c2 [d2 [-> V2]]].
  eexists. split; [reflexivity|]. rewrite <- (Hdegree _ _ V1), <- (Hdegree _ _ V2).
  apply (Hm p); unfold stored; [rewrite E1|rewrite E2]; assumption.
Qed.

(** Crash at byte [k] of the first save, then any later request. *)
Theorem crash_breaks : forall p k L s L' s' o', valid_schedule s -> (0 <= L)%Z -> (0 <= L')%Z ->
  exists w' e, go empty_world [SetPath (Some p); Request L s (IoKilled k); Request L' s' o']
    = (w', [None; Some (Err Killed); Some (Err e)]) /\ (e = EOFError \/ e = BadZipFile).
Proof.
  intros p k L s L' s' o' Hs HL HL'. unfold go. cbn [run step].
  set (w1 := mkWorld (Some p) (files empty_world) (package_data empty_world)).
  pose proof (killed_generate C T load init schedule extend compress valid good part valid_schedule
    Hinit Hext w1 p k L s) as H.
  destruct (generate C T load init schedule extend compress w1 L s (IoKilled k)) as [w2 r2].
  destruct H as [-> [H2 H3]]; [split; [discriminate|reflexivity]|assumption|reflexivity|reflexivity|reflexivity|assumption|].
  destruct (torn_request_fails C T load init schedule extend compress w2 p k L' s' o' H3 H2 HL') as [e [E He]].
  rewrite E. eauto.
Qed.

(** After any history of failures, a request whose cache file is not damaged is answered correctly. *)
Theorem crash_elsewhere : forall w h q L s o, fresh_install gen compress w -> Forall any_failure h ->
  valid_schedule s ->
  let w1 := fst (go w (h ++ [SetPath q])) in
  (forall p k, q = Some p -> files w1 p <> Some (Torn k)) ->
  let r := snd (gen w1 L s o) in
  r = Err Killed \/ as_cold same (cold_result gen) (Request L s o) (Some r).
Proof.
  intros w h q L s o Hw Hh Hs w1 Hq r. apply fresh_ok in Hw.
  assert (Hwk : weak_ok C valid w).
  { destruct Hw as [Hf Hp]. split; [|exact Hp]. intros p c E. destruct (Hf p _ E) as [c' [d [Q V]]]. injection Q as <-. eauto. }
  assert (H1 : weak_ok C valid w1).
  { apply (weak_run C T load init schedule extend compress valid good part valid_schedule
      Hdeg Hfun Hload Hinit Hext Hcomp); [exact Hwk|].
    apply Forall_app. split; [|repeat constructor]. exact Hh. }
  assert (Ec : config_path w1 = q).
  { unfold w1. rewrite run_app. unfold go. reflexivity. }
  pose proof (weak_generate C T load init schedule extend compress valid good part valid_schedule
    Hdeg Hfun Hload Hinit Hext Hcomp w1 L s o H1 Hs) as H.
  unfold r, gen. destruct (generate C T load init schedule extend compress w1 L s o) as [w2 r2].
  destruct H as [_ H]. simpl snd.
  destruct (H) as [->|Hr].
  - intros p k Ep. rewrite Ec in Ep. now apply Hq.
  - now left.
  - right. now apply reply_as_cold.
Qed.
End Hist.
