(** Generic lemmas about caches, process pools and scattered writes (C15-C20). *)
Require Import String List ZArith Bool Lia Permutation.
Require Import Verif.Base Verif.Common_Model Verif.LUT_Model Verif.LUT_Spec.
Import ListNotations.

(** ** Cache histories *)
Section GenericProofs.
Variables C T : Type.
Variable load : nat -> C -> result (Z * T).
Variable init : nat -> T.
Variable sched : Type.
Variable extend : sched -> nat -> nat -> T -> result T.
Variable compress : T -> C.

Variable valid : C -> Z -> Prop.
Variable good : nat -> T -> Prop.
Variable part : Z -> nat -> T -> Prop.
Variable vs : sched -> Prop.

Hypothesis Hdeg : forall c d, valid c d -> (-1 <= d)%Z.
Hypothesis Hfun : forall c d d', valid c d -> valid c d' -> d = d'.
Hypothesis Hload : forall L c d, valid c d ->
  exists t, load L c = Ok (d, t) /\ ((Z.of_nat L <= d)%Z -> good L t) /\ ((d < Z.of_nat L)%Z -> part d L t).
Hypothesis Hinit : forall L, part (-1) L (init L).
Hypothesis Hext : forall s d L t, vs s -> (-1 <= d < Z.of_nat L)%Z -> part d L t ->
  exists t', extend s L (Z.to_nat (d + 1)) t = Ok t' /\ good L t'.
Hypothesis Hcomp : forall L t, good L t -> valid (compress t) (Z.of_nat L).

Definition world_ok (w : world C) : Prop :=
  (forall p f, files w p = Some f -> exists c d, f = Saved c /\ valid c d) /\
  match package_data w with Ok c => exists d, valid c d | Err e => caught e = true end.

Definition event_ok (e : event sched) : Prop :=
  match e with
  | Request _ s o => vs s /\ (o = IoOk \/ o = IoOpenFails)
  | SetPath _ => True
  end.

Definition reply_ok (e : event sched) (r : option (result T)) : Prop :=
  match e with
  | SetPath _ => r = None
  | Request L _ _ =>
      if (L <? 0)%Z then r = Some (Err ValueError)
      else exists t, r = Some (Ok t) /\ good (Z.to_nat L) t
  end.

(** Degree of the table stored at a path; -1 if there is none. *)
Definition stored (w : world C) (p : string) (d : Z) : Prop :=
  match files w p with Some (Saved c) => valid c d | Some (Torn _) => d = (-1)%Z | None => d = (-1)%Z end.

Lemma load_world : forall w L, world_ok w ->
  exists d t, load_lookup_table_from_disk C T load init w L = Ok (d, t) /\ (-1 <= d)%Z
    /\ ((Z.of_nat L <= d)%Z -> good L t) /\ ((d < Z.of_nat L)%Z -> part d L t)
    /\ (forall p d', config_path w = Some p -> stored w p d' -> (d' <= d)%Z).
Proof.
  intros w L [Hf Hp]. unfold load_lookup_table_from_disk.
  assert (Hpkg : exists d t,
    match bind (package_data w) (load L) with
    | Ok r => Ok r | Err e => if caught e then Ok ((-1)%Z, init L) else Err e end = Ok (d, t)
    /\ (-1 <= d)%Z /\ ((Z.of_nat L <= d)%Z -> good L t) /\ ((d < Z.of_nat L)%Z -> part d L t)).
  { destruct (package_data w) as [c|e]; simpl.
    - destruct Hp as [d Hv]. destruct (Hload L c d Hv) as [t [E H]]. rewrite E. exists d, t.
      split; [reflexivity|]. split; [now apply Hdeg with c|assumption].
    - rewrite Hp. exists (-1)%Z, (init L). split; [reflexivity|]. split; [lia|]. split; [lia|].
      intros _. apply Hinit. }
  destruct (config_path w) as [p|].
  - destruct (files w p) as [f|] eqn:Ef.
    + destruct (Hf p f Ef) as [c [d [-> Hv]]]. simpl. destruct (Hload L c d Hv) as [t [E [H1 H2]]].
      exists d, t. split; [exact E|]. split; [now apply Hdeg with c|]. split; [assumption|]. split; [assumption|].
      intros p' d' Hp' Hs. injection Hp' as <-. unfold stored in Hs. rewrite Ef in Hs.
      rewrite (Hfun c d d' Hv Hs). lia.
    + destruct Hpkg as [d [t [E [H0 H]]]]. exists d, t. split; [exact E|]. split; [exact H0|].
      split; [apply H|]. split; [apply H|]. intros p' d' Hp' Hs. injection Hp' as <-.
      unfold stored in Hs. rewrite Ef in Hs. lia.
  - destruct Hpkg as [d [t [E [H0 H]]]]. exists d, t. split; [exact E|]. split; [exact H0|].
    split; [apply H|]. split; [apply H|]. discriminate.
Qed.

Lemma generate_ok : forall w L s o, world_ok w -> vs s ->
  let '(w', r) := generate C T load init sched extend compress w L s o in
  reply_ok (Request L s o) (Some (match r with Err Killed => r | _ => r end)) \/ r = Err Killed.
Proof.
  intros w L s o Hw Hs. unfold generate, check_degree. simpl.
  destruct (Z.ltb_spec L 0) as [Hneg|Hpos]; [now left|].
  destruct (load_world w (Z.to_nat L) Hw) as [d [t [E [Hd [H1 [H2 _]]]]]]. rewrite E.
  destruct (Z.leb_spec (Z.of_nat (Z.to_nat L)) d) as [Hle|Hlt].
  - left. exists t. auto.
  - destruct (Hext s d (Z.to_nat L) t Hs ltac:(lia) (H2 Hlt)) as [t' [E' Hg]]. rewrite E'.
    destruct (save_lookup_table_to_disk C w (compress t') o) as [w' alive].
    destruct alive; [left; exists t'; auto|right; reflexivity].
Qed.

Lemma step_ok : forall w e, world_ok w -> event_ok e ->
  let '(w', r) := step C T load init sched extend compress w e in
  world_ok w' /\ reply_ok e r /\
  (forall p d d', stored w p d -> stored w' p d' -> (d <= d')%Z) /\
  (forall p, files w p <> None -> files w' p <> None).
Proof.
  intros w e Hw He. destruct e as [L s o|p].
  - destruct He as [Hs Ho]. simpl. unfold generate, check_degree.
    assert (Hrefl : forall p d d', stored w p d -> stored w p d' -> (d <= d')%Z).
    { intros p d d'. unfold stored. destruct (files w p) as [[c|k]|]; intros A B; try lia.
      rewrite (Hfun c d d' A B). lia. }
    destruct (Z.ltb_spec L 0) as [Hneg|Hpos]; [auto|].
    destruct (load_world w (Z.to_nat L) Hw) as [d [t [E [Hd [H1 [H2 H3]]]]]]. rewrite E.
    destruct (Z.leb_spec (Z.of_nat (Z.to_nat L)) d) as [Hle|Hlt].
    + split; [assumption|]. split; [exists t; auto|]. split; [assumption|auto].
    + destruct (Hext s d (Z.to_nat L) t Hs ltac:(lia) (H2 Hlt)) as [t' [E' Hg]]. rewrite E'.
      unfold save_lookup_table_to_disk. destruct (config_path w) as [p|] eqn:Ep.
      * destruct Ho as [->| ->].
        -- split; [|split; [exists t'; auto|split]].
           ++ destruct Hw as [Hf Hp]. split; [|exact Hp]. intros q f. simpl.
              destruct (String.eqb_spec q p) as [->|Hne]; [|apply Hf].
              intros Hq. injection Hq as <-. exists (compress t'), (Z.of_nat (Z.to_nat L)). auto.
           ++ intros q a b Ha. unfold stored at 1. simpl.
              destruct (String.eqb_spec q p) as [->|Hne].
              ** intros Hb. specialize (H3 p a eq_refl Ha).
                 rewrite (Hfun _ b (Z.of_nat (Z.to_nat L)) Hb (Hcomp _ _ Hg)). lia.
              ** intros Hb. apply (Hrefl q a b Ha). exact Hb.
           ++ intros q Hq. simpl. destruct (String.eqb q p); [discriminate|assumption].
        -- split; [assumption|]. split; [exists t'; auto|]. split; [assumption|auto].
      * split; [assumption|]. split; [exists t'; auto|]. split; [assumption|auto].
  - simpl. split; [exact Hw|]. split; [reflexivity|]. split; [|auto].
    intros q d d'. unfold stored. simpl. destruct (files w q) as [[c|k]|]; intros A B; try lia.
    rewrite (Hfun c d d' A B). lia.
Qed.

Lemma run_ok : forall h w, world_ok w -> Forall event_ok h ->
  let '(w', rs) := run C T load init sched extend compress w h in
  world_ok w' /\ Forall2 reply_ok h rs /\
  (forall p d d', stored w p d -> stored w' p d' -> (d <= d')%Z) /\
  (forall p, files w p <> None -> files w' p <> None).
Proof.
  induction h as [|e h IH]; intros w Hw Hh; simpl.
  - split; [assumption|]. split; [constructor|]. split; [|auto].
    intros p d d'. unfold stored. destruct (files w p) as [[c|k]|]; intros A B; try lia.
    rewrite (Hfun c d d' A B). lia.
  - inversion Hh as [|? ? He Hh']; subst. pose proof (step_ok w e Hw He) as Hst.
    destruct (step C T load init sched extend compress w e) as [w1 r].
    destruct Hst as [Hw1 [Hr [Hm Hn]]]. specialize (IH w1 Hw1 Hh').
    destruct (run C T load init sched extend compress w1 h) as [w2 rs].
    destruct IH as [Hw2 [Hrs [Hm2 Hn2]]].
    split; [assumption|]. split; [now constructor|]. split; [|auto].
    intros p d d' Hd Hd'.
    assert (Hex : exists dm, stored w1 p dm).
    { unfold stored. destruct Hw1 as [Hf1 _]. destruct (files w1 p) as [f|] eqn:Ef; [|eauto].
      destruct (Hf1 p f Ef) as [c [dm [-> Hv]]]. eauto. }
    destruct Hex as [dm Hdm]. specialize (Hm p d dm Hd Hdm). specialize (Hm2 p dm d' Hdm Hd'). lia.
Qed.

(** A torn file at the configured path makes every request fail. *)
Lemma torn_request_fails : forall w p k L s o, config_path w = Some p -> files w p = Some (Torn k) ->
  (0 <= L)%Z -> exists e, generate C T load init sched extend compress w L s o = (w, Err e)
    /\ (e = EOFError \/ e = BadZipFile).
Proof.
  intros w p k L s o Hp Hf HL. unfold generate, check_degree.
  destruct (Z.ltb_spec L 0); [lia|]. unfold load_lookup_table_from_disk. rewrite Hp, Hf.
  destruct k; simpl; eauto.
Qed.

(** A killed save leaves a torn file. *)
Lemma killed_save_tears : forall w p k L s, world_ok w -> vs s -> config_path w = Some p ->
  (0 <= L)%Z -> (forall d, stored w p d -> (d < L)%Z) ->
  files w p <> None ->
  let '(w', r) := generate C T load init sched extend compress w L s (IoKilled k) in
  r = Err Killed /\ files w' p = Some (Torn k) /\ config_path w' = Some p.
Proof.
  intros w p k L s [Hf Hp] Hs Ep HL Hd Hn. unfold generate, check_degree.
  destruct (Z.ltb_spec L 0); [lia|]. unfold load_lookup_table_from_disk. rewrite Ep.
  destruct (files w p) as [f|] eqn:Ef; [|congruence].
  destruct (Hf p f Ef) as [c [d [-> Hv]]]. simpl.
  assert (Hdl : (d < L)%Z) by (apply Hd; unfold stored; now rewrite Ef).
  destruct (Hload (Z.to_nat L) c d Hv) as [t [E [_ H2]]]. rewrite E.
  destruct (Z.leb_spec (Z.of_nat (Z.to_nat L)) d); [lia|].
  destruct (Hext s d (Z.to_nat L) t Hs ltac:(specialize (Hdeg c d Hv); lia) (H2 ltac:(lia))) as [t' [E' Hg]].
  rewrite E'. unfold save_lookup_table_to_disk. rewrite Ep. simpl. rewrite String.eqb_refl. auto.
Qed.

(** ** Worlds with torn files *)
Definition weak_ok (w : world C) : Prop :=
  (forall p c, files w p = Some (Saved c) -> exists d, valid c d) /\
  match package_data w with Ok c => exists d, valid c d | Err e => caught e = true end.

Definition untorn (w : world C) : Prop :=
  forall p k, config_path w = Some p -> files w p <> Some (Torn k).

Lemma weak_load : forall w L, weak_ok w -> untorn w ->
  exists d t, load_lookup_table_from_disk C T load init w L = Ok (d, t) /\ (-1 <= d)%Z
    /\ ((Z.of_nat L <= d)%Z -> good L t) /\ ((d < Z.of_nat L)%Z -> part d L t).
Proof.
  intros w L [Hf Hp] Hu.
  set (w' := mkWorld (config_path w) (fun p => match files w p with Some (Torn _) => None | f => f end) (package_data w)).
  assert (Hw' : world_ok w').
  { split; [|exact Hp]. intros p f. simpl. destruct (files w p) as [[c|k]|] eqn:E; intros Q; try discriminate.
    injection Q as <-. destruct (Hf p c E) as [d Hd]. eauto. }
  destruct (load_world w' L Hw') as [d [t [E [H1 [H2 [H3 _]]]]]]. exists d, t.
  split; [|auto]. rewrite <- E. unfold load_lookup_table_from_disk. simpl.
  destruct (config_path w) as [p|] eqn:Ep; [|reflexivity].
  destruct (files w p) as [[c|k]|] eqn:Ef; [reflexivity| |reflexivity]. exfalso. now apply (Hu p k).
Qed.

Lemma weak_generate : forall w L s o, weak_ok w -> vs s ->
  let '(w', r) := generate C T load init sched extend compress w L s o in
  weak_ok w' /\ (untorn w -> r = Err Killed \/ reply_ok (Request L s o) (Some r)).
Proof.
  intros w L s o Hw Hs.
  assert (Hg : forall t n, good n t -> weak_ok (fst (save_lookup_table_to_disk C w (compress t) o))).
  { intros t n Hg. unfold save_lookup_table_to_disk. destruct (config_path w) as [p|]; [|exact Hw].
    destruct Hw as [Hf Hp]. destruct o; simpl; try (split; assumption).
    - split; [|exact Hp]. intros q c. simpl. destruct (String.eqb q p); [|apply Hf].
      intros E. injection E as <-. eauto.
    - split; [|exact Hp]. intros q c. simpl. destruct (String.eqb q p); [discriminate|apply Hf].
    - split; [|exact Hp]. intros q c. simpl. destruct (String.eqb q p); [discriminate|apply Hf]. }
  unfold generate, check_degree. destruct (Z.ltb_spec L 0) as [Hneg|Hpos].
  { split; [exact Hw|]. intros _. right. simpl. destruct (Z.ltb_spec L 0); [reflexivity|lia]. }
  assert (Hl : forall d t, load_lookup_table_from_disk C T load init w (Z.to_nat L) = Ok (d, t) ->
     (-1 <= d)%Z /\ ((Z.of_nat (Z.to_nat L) <= d)%Z -> good (Z.to_nat L) t)
     /\ ((d < Z.of_nat (Z.to_nat L))%Z -> part d (Z.to_nat L) t)).
  { intros d t E.
    assert (Hu : untorn w).
    { intros p k Ep Ef. unfold load_lookup_table_from_disk in E. rewrite Ep, Ef in E. destruct k; discriminate. }
    destruct (weak_load w (Z.to_nat L) Hw Hu) as [d' [t' [E' H]]]. rewrite E in E'. injection E' as <- <-. exact H. }
  destruct (load_lookup_table_from_disk C T load init w (Z.to_nat L)) as [[d t]|e] eqn:El.
  - destruct (Hl d t eq_refl) as [Hd [H1 H2]].
    destruct (Z.leb_spec (Z.of_nat (Z.to_nat L)) d) as [Hle|Hlt].
    + split; [exact Hw|]. intros _. right. simpl. destruct (Z.ltb_spec L 0); [lia|]. eauto.
    + destruct (Hext s d (Z.to_nat L) t Hs ltac:(lia) (H2 Hlt)) as [t' [E' Hgd]]. rewrite E'.
      pose proof (Hg t' _ Hgd) as Hw'. destruct (save_lookup_table_to_disk C w (compress t') o) as [w' alive].
      split; [exact Hw'|]. intros _. destruct alive; [right|now left]. simpl.
      destruct (Z.ltb_spec L 0); [lia|]. eauto.
  - split; [exact Hw|]. intros Hu. destruct (weak_load w (Z.to_nat L) Hw Hu) as [d' [t' [E' _]]]. congruence.
Qed.

Lemma weak_run : forall h w, weak_ok w -> Forall (fun e => match e with Request _ s _ => vs s | SetPath _ => True end) h ->
  weak_ok (fst (run C T load init sched extend compress w h)).
Proof.
  induction h as [|e h IH]; intros w Hw Hh; [exact Hw|]. inversion Hh as [|? ? He Hh']; subst. simpl.
  assert (Hw1 : weak_ok (fst (step C T load init sched extend compress w e))).
  { destruct e as [L s o|p]; simpl.
    - pose proof (weak_generate w L s o Hw He) as H.
      destruct (generate C T load init sched extend compress w L s o). apply H.
    - exact Hw. }
  destruct (step C T load init sched extend compress w e) as [w1 r]. specialize (IH w1 Hw1 Hh').
  destruct (run C T load init sched extend compress w1 h). exact IH.
Qed.

(** A killed save, whatever was there before. *)
Lemma killed_generate : forall w p k L s, weak_ok w -> vs s -> config_path w = Some p -> files w p = None ->
  package_data w = Err OSError -> (0 <= L)%Z ->
  let '(w', r) := generate C T load init sched extend compress w L s (IoKilled k) in
  r = Err Killed /\ files w' p = Some (Torn k) /\ config_path w' = Some p.
Proof.
  intros w p k L s Hw Hs Ep Ef Epk HL. unfold generate, check_degree.
  destruct (Z.ltb_spec L 0); [lia|]. unfold load_lookup_table_from_disk. rewrite Ep, Ef, Epk. simpl.
  destruct (Z.leb_spec (Z.of_nat (Z.to_nat L)) (-1)); [lia|].
  destruct (Hext s (-1)%Z (Z.to_nat L) (init (Z.to_nat L)) Hs ltac:(lia) (Hinit _)) as [t' [E' Hg]]. simpl in E'.
  rewrite E'. unfold save_lookup_table_to_disk. rewrite Ep. simpl. rewrite String.eqb_refl. auto.
Qed.
End GenericProofs.

(** ** Process pools *)

Lemma nth_error_set_nth : forall X (l : list X) i j v,
  nth_error (set_nth i v l) j = if (i =? j) && (j <? length l) then Some v else nth_error l j.
Proof.
  induction l as [|a l IH]; intros i j v.
  - simpl (length []). rewrite andb_false_r. now destruct i, j.
  - destruct i as [|i]; destruct j as [|j]; simpl; try reflexivity. rewrite IH. reflexivity.
Qed.

Lemma set_nth_len : forall A (v : A) p i, length (set_nth i v p) = length p.
Proof. intros A v; induction p as [|a p IH]; intros [|i]; simpl; auto. Qed.

Lemma nth_error_ext_list : forall X (a b : list X), (forall i, nth_error a i = nth_error b i) -> a = b.
Proof.
  induction a as [|x a IH]; intros [|y b] H; [reflexivity|specialize (H 0); discriminate|specialize (H 0); discriminate|].
  pose proof (H 0) as H0. simpl in H0. injection H0 as ->. f_equal. apply IH. intros i. apply (H (S i)).
Qed.

Lemma all_some_map : forall X (l : list X), all_some (map Some l) = Some l.
Proof. induction l as [|x l IH]; simpl; [reflexivity|]. now rewrite IH. Qed.

Lemma starmap_fold : forall X Y (f : X -> Y) args order slots,
  length slots = length args ->
  let r := fold_left (fun slots i => match nth_error args i with
                                | Some x => set_nth i (Some (f x)) slots
                                | None => slots end) order slots in
  length r = length args /\
  forall i, nth_error r i = if in_dec Nat.eq_dec i order
    then match nth_error args i with Some x => Some (Some (f x)) | None => None end
    else nth_error slots i.
Proof.
  intros X Y f args order; induction order as [|o order IH]; intros slots Hl; cbv zeta; cbn [fold_left].
  - split; [assumption|]. intros i. reflexivity.
  - set (slots' := match nth_error args o with Some x => set_nth o (Some (f x)) slots | None => slots end).
    assert (Hl' : length slots' = length args).
    { unfold slots'. destruct (nth_error args o); [now rewrite set_nth_len|assumption]. }
    destruct (IH slots' Hl') as [H1 H2]. cbv zeta in H1, H2. split; [exact H1|].
    intros i. rewrite H2. destruct (in_dec Nat.eq_dec i order) as [Hi|Hi];
      destruct (in_dec Nat.eq_dec i (o :: order)) as [Hj|Hj]; try reflexivity.
    + exfalso. apply Hj. now right.
    + destruct Hj as [->|Hj]; [|contradiction]. unfold slots'.
      destruct (nth_error args i) as [x|] eqn:Ex.
      * rewrite nth_error_set_nth, Nat.eqb_refl. simpl.
        assert (i < length args) by (apply nth_error_Some; congruence).
        destruct (Nat.ltb_spec i (length slots)); [reflexivity|lia].
      * apply nth_error_None. rewrite Hl. now apply nth_error_None.
    + unfold slots'. destruct (nth_error args o) as [x|]; [|reflexivity].
      rewrite nth_error_set_nth. destruct (Nat.eqb_spec o i) as [->|Hne]; [|reflexivity].
      exfalso. apply Hj. now left.
Qed.

Lemma pool_map_ok : forall X Y (s : schedule) (f : X -> Y) args, valid_schedule s ->
  pool_map s f args = Ok (map f args).
Proof.
  intros X Y s f args Hs. unfold pool_map.
  assert (E : starmap s f args = map Some (map f args)).
  { destruct s as [order|]; simpl; [|now rewrite map_map].
    destruct (starmap_fold X Y f args (order (length args)) (repeat None (length args))) as [_ H];
      [apply repeat_length|]. cbv zeta in H.
    apply nth_error_ext_list. intros i. rewrite H, map_map.
    destruct (in_dec Nat.eq_dec i (order (length args))) as [Hi|Hi].
    - rewrite nth_error_map. destruct (nth_error args i); reflexivity.
    - assert (Hge : length args <= i).
      { destruct (Nat.le_gt_cases (length args) i); [assumption|]. exfalso. apply Hi.
        eapply Permutation_in; [apply Permutation_sym, Hs|]. apply in_seq. lia. }
      transitivity (@None (option Y)); [|symmetry]; apply nth_error_None;
        [rewrite repeat_length|rewrite map_length]; assumption. }
  rewrite E, all_some_map. reflexivity.
Qed.

(** ** Scattered writes *)
Section Scatter.
Variable A : Type.
Variable zero : A.
Variable is_zero : A -> bool.
Hypothesis is_zero_iff : forall a, is_zero a = true <-> a = zero.
Variable K : Type.
Variable keq : K -> K -> bool.
Hypothesis keq_iff : forall p q, keq p q = true <-> p = q.

Definition puts (es : list (K * A)) (a : K -> A) : K -> A :=
  fold_left (fun a e => put A K keq a (fst e) (snd e)) es a.

Lemma scatter_ok : forall inb es a, (forall k v, In (k, v) es -> inb k = true) ->
  scatter A K keq inb es a = Ok (puts es a).
Proof.
  intros inb es; induction es as [|[k v] es IH]; intros a H; simpl; [reflexivity|].
  rewrite (H k v) by now left. apply IH. intros k' v' Hin. apply (H k' v'). now right.
Qed.

Lemma puts_spec : forall q V es a, (forall v, In (q, v) es -> v = V) ->
  puts es a q = if existsb (fun e => keq (fst e) q) es then V else a q.
Proof.
  intros q V es; induction es as [|[k v] es IH]; intros a H; [reflexivity|].
  change (puts ((k, v) :: es) a) with (puts es (put A K keq a k v)).
  rewrite IH by (intros v' Hv; apply H; now right). simpl.
  destruct (existsb (fun e => keq (fst e) q) es); [now rewrite orb_true_r|].
  rewrite orb_false_r. unfold put. destruct (keq k q) eqn:E; [|reflexivity].
  apply keq_iff in E. subst k. apply H. now left.
Qed.

Lemma puts_hit : forall q V es a, (forall v, In (q, v) es -> v = V) -> In (q, V) es -> puts es a q = V.
Proof.
  intros q V es a H Hin. rewrite (puts_spec q V) by assumption.
  assert (E : existsb (fun e => keq (fst e) q) es = true).
  { apply existsb_exists. exists (q, V). split; [assumption|]. now apply keq_iff. }
  now rewrite E.
Qed.

Lemma puts_miss : forall q es a, (forall v, ~ In (q, v) es) -> puts es a q = a q.
Proof.
  intros q es a H. rewrite (puts_spec q zero) by (intros v Hv; destruct (H v Hv)).
  destruct (existsb (fun e => keq (fst e) q) es) eqn:E; [|reflexivity].
  apply existsb_exists in E. destruct E as [[k v] [Hin E]]. simpl in E. apply keq_iff in E. subst k.
  destruct (H v Hin).
Qed.

Lemma puts_app : forall es fs a, puts (es ++ fs) a = puts fs (puts es a).
Proof. intros. unfold puts. apply fold_left_app. Qed.

(** Writes only depend on the old content at the place read. *)
Lemma puts_ext : forall q es a b, a q = b q -> puts es a q = puts es b q.
Proof.
  intros q es; induction es as [|[k v] es IH]; intros a b H; [exact H|].
  change (puts ((k, v) :: es) a) with (puts es (put A K keq a k v)).
  change (puts ((k, v) :: es) b) with (puts es (put A K keq b k v)).
  apply IH. unfold put. now destruct (keq k q).
Qed.

(** Compressing and scattering gives back every entry. *)
Lemma nonzeros_in : forall ks a k v, In (k, v) (nonzeros A is_zero K ks a) -> In k ks /\ v = a k.
Proof.
  intros ks a k v H. unfold nonzeros in H. apply in_map_iff in H. destruct H as [k' [E H]].
  injection E as -> <-. apply filter_In in H. tauto.
Qed.

Lemma nonzeros_scatter : forall ks a q, In q ks -> puts (nonzeros A is_zero K ks a) (zeros A zero) q = a q.
Proof.
  intros ks a q Hq. destruct (is_zero (a q)) eqn:Ez.
  - rewrite puts_miss; [unfold zeros; symmetry; now apply is_zero_iff|].
    intros v Hin. unfold nonzeros in Hin. apply in_map_iff in Hin. destruct Hin as [k' [E Hin]].
    injection E as -> _. apply filter_In in Hin. destruct Hin as [_ Hin]. rewrite Ez in Hin. discriminate.
  - apply puts_hit.
    + intros v Hv. apply nonzeros_in in Hv. tauto.
    + unfold nonzeros. apply in_map_iff. exists q. split; [reflexivity|]. apply filter_In.
      split; [assumption|]. now rewrite Ez.
Qed.
End Scatter.

Lemma eq2_iff : forall p q, eq2 p q = true <-> p = q.
Proof.
  intros [a b] [c d]. unfold eq2. simpl. rewrite andb_true_iff, !Nat.eqb_eq. split; [intros [-> ->]; reflexivity|].
  intros E. injection E as -> ->. auto.
Qed.

Lemma eq3_iff : forall p q, eq3 p q = true <-> p = q.
Proof.
  intros [a b] [c d]. unfold eq3. simpl. rewrite andb_true_iff, eq2_iff, Nat.eqb_eq.
  split; [intros [-> ->]; reflexivity|]. intros E. injection E as -> ->. auto.
Qed.

Lemma in2_iff : forall n m p, in2 n m p = true <-> fst p < n /\ snd p < m.
Proof. intros n m p. unfold in2. now rewrite andb_true_iff, !Nat.ltb_lt. Qed.

Lemma in3_iff : forall n p, in3 n p = true <-> fst (fst p) < n /\ snd (fst p) < n /\ snd p < n.
Proof. intros n p. unfold in3. rewrite andb_true_iff, in2_iff, Nat.ltb_lt. tauto. Qed.

Lemma in_keys2 : forall n m p, In p (keys2 n m) <-> in2 n m p = true.
Proof.
  intros n m [a b]. rewrite in2_iff. unfold keys2. etransitivity; [apply in_prod_iff|].
  rewrite !in_seq. simpl. lia.
Qed.

Lemma in_keys3 : forall n p, In p (keys3 n) <-> in3 n p = true.
Proof.
  intros n [p c]. rewrite in3_iff. unfold keys3. etransitivity; [apply in_prod_iff|].
  etransitivity; [apply and_iff_compat_r, in_keys2|]. rewrite in2_iff, in_seq. simpl. lia.
Qed.

Lemma in_zrange : forall a b x, In x (zrange a b) <-> (a <= x < b)%Z.
Proof.
  intros a b x. unfold zrange. rewrite in_map_iff. split.
  - intros [k [<- Hk]]. apply in_seq in Hk. lia.
  - intros H. exists (Z.to_nat (x - a)). split; [lia|]. apply in_seq. lia.
Qed.
