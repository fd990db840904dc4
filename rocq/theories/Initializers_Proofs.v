(** Proofs about kernel initialisation. *)
Require Import List Reals ZArith Bool Lia Lra.
Require Import Verif.Base Verif.Initializers_Model Verif.Initializers_Spec.
Import ListNotations.
Arguments Nat.modulo : simpl never.

Notation pld := (nat * nat * nat)%type.
Notation triple := (pld * (pld * pld))%type.

Lemma in_pld : forall S n c p l d, parity_degree_index_parity_list S n = Ok c ->
  (In (p, l, d) c <-> (p < S /\ l < n /\ d = entry_parity S p l)%nat).
Proof.
  intros S n c p l d. unfold parity_degree_index_parity_list, entry_parity.
  destruct (Nat.eqb_spec S 2) as [->|H2].
  - intros H; injection H as <-. rewrite in_app_iff, !in_map_iff. split.
    + intros [[x [E Hx]]|[x [E Hx]]]; apply in_seq in Hx; injection E as <- <- <-; lia.
    + intros [Hp [Hl ->]]. destruct p as [|[|p]]; [left|right|lia]; exists l; (split; [reflexivity|apply in_seq; lia]).
  - destruct (Nat.eqb_spec S 1) as [->|H1]; [|discriminate]. intros H; injection H as <-. rewrite in_map_iff. split.
    + intros [x [E Hx]]. apply in_seq in Hx. injection E as <- <- <-. lia.
    + intros [Hp [Hl ->]]. assert (p = 0)%nat by lia. subst p. exists l. split; [reflexivity|apply in_seq; lia].
Qed.

Lemma nodup_map : forall (A B : Type) (f : A -> B) l, NoDup l ->
  (forall a b, In a l -> In b l -> f a = f b -> a = b) -> NoDup (map f l).
Proof.
  intros A B f l H; induction H as [|a l Ha H IH]; intros Hf; [constructor|]. cbn. constructor.
  - intros Hin. apply in_map_iff in Hin. destruct Hin as [b [E Hb]]. apply Ha. rewrite (Hf a b); auto; [left; reflexivity|right; exact Hb].
  - apply IH. intros b c Hb Hc. apply Hf; right; assumption.
Qed.

Lemma nodup_app : forall (A : Type) (l m : list A), NoDup l -> NoDup m -> (forall a, In a l -> In a m -> False) -> NoDup (l ++ m).
Proof.
  intros A l m Hl Hm; induction Hl as [|a l Ha Hl IH]; intros H; [exact Hm|]. cbn. constructor.
  - intros Hin. apply in_app_iff in Hin. destruct Hin as [Hin|Hin]; [exact (Ha Hin)|]. apply (H a); [left; reflexivity|exact Hin].
  - apply IH. intros b Hb Hb'. apply (H b); [right; exact Hb|exact Hb'].
Qed.

Lemma nodup_pld : forall S n c, parity_degree_index_parity_list S n = Ok c -> NoDup c.
Proof.
  intros S n c. unfold parity_degree_index_parity_list.
  assert (E : forall (g : nat -> pld), (forall a b, g a = g b -> a = b) -> NoDup (map g (seq 0 n))).
  { intros g Hg. apply nodup_map; [apply seq_NoDup|]. intros a b _ _. apply Hg. }
  destruct (S =? 2)%nat.
  - intros H; injection H as <-. apply nodup_app; try (apply E; intros a b Hab; congruence).
    intros a H1 H2. apply in_map_iff in H1, H2. destruct H1 as [x [<- _]]. destruct H2 as [y [Hy _]]. discriminate.
  - destruct (S =? 1)%nat; [|discriminate]. intros H; injection H as <-. apply E. intros a b Hab. congruence.
Qed.

Lemma nodup_prod : forall (A B : Type) (l : list A) (m : list B), NoDup l -> NoDup m -> NoDup (list_prod l m).
Proof.
  intros A B l m Hl Hm; induction Hl as [|a l Ha Hl IH]; [constructor|]. cbn. apply nodup_app; [|exact IH|].
  - apply nodup_map; [exact Hm|]. intros b c _ _ H. congruence.
  - intros [x y] H1 H2. apply in_map_iff in H1. destruct H1 as [z [E _]]. injection E as <- <-.
    apply in_prod_iff in H2. apply Ha. apply H2.
Qed.

(** ** The loop *)

Definition forbidden (t : triple) : bool :=
  let '((_, l1, d1), ((_, l2, d2), (_, l3, d3))) := t in
  (negb ((d1 + d2) mod 2 =? d3)%nat
     || negb ((Z.abs (Z.of_nat l1 - Z.of_nat l2) <=? Z.of_nat l3) && (Z.of_nat l3 <=? Z.of_nat l1 + Z.of_nat l2))%Z)%bool.

Definition hits_in (a b c d : nat) (t : triple) : bool :=
  let '((p1, l1, _), ((p2, l2, _), (p3, l3, _))) := t in
  ((a =? p1) && (b =? l1) && (c =? p2) && (d =? l2))%nat.

Definition hits_out (e f : nat) (t : triple) : bool :=
  let '((p1, l1, _), ((p2, l2, _), (p3, l3, _))) := t in ((e =? p3) && (f =? l3))%nat.

Lemma loop : forall ts s,
  (forall e f, fan_in (fold_left fans_step ts s) e f
     = (fan_in s e f + length (filter (fun t => negb (forbidden t) && hits_out e f t) ts))%nat)
  /\ (forall a b c d, fan_out (fold_left fans_step ts s) a b c d
     = (fan_out s a b c d + length (filter (fun t => negb (forbidden t) && hits_in a b c d t) ts))%nat)
  /\ (forall a b c d e f, path_mask (fold_left fans_step ts s) a b c d e f
     = (path_mask s a b c d e f && negb (existsb (fun t => forbidden t && hits_in a b c d t && hits_out e f t) ts))%bool).
Proof.
  induction ts as [|t ts IH]; intros s.
  - cbn. repeat split; intros; try lia. rewrite andb_true_r. reflexivity.
  - cbn [fold_left filter existsb]. destruct (IH (fans_step s t)) as [H1 [H2 H3]].
    destruct t as [[[p1 l1] d1] [[[p2 l2] d2] [[p3 l3] d3]]].
    set (t0 := (p1, l1, d1, (p2, l2, d2, (p3, l3, d3)))) in *.
    assert (E : fans_step s t0 = if forbidden t0
      then mkFans (fan_in s) (fan_out s) (fun a b c d e f => if ((a =? p1) && (b =? l1) && (c =? p2) && (d =? l2) && (e =? p3) && (f =? l3))%nat
             then false else path_mask s a b c d e f)
      else mkFans (fun e f => if ((e =? p3) && (f =? l3))%nat then S (fan_in s e f) else fan_in s e f)
         (fun a b c d => if ((a =? p1) && (b =? l1) && (c =? p2) && (d =? l2))%nat
                         then S (fan_out s a b c d) else fan_out s a b c d) (path_mask s)) by reflexivity.
    rewrite E in *. clear E.
    destruct (forbidden _) eqn:Hf; cbn [fan_in fan_out path_mask negb andb] in *.
    + split; [exact H1|]. split; [exact H2|]. intros a b c d e f. rewrite H3. cbn [hits_in hits_out].
      unfold t0. cbn [hits_in hits_out].
      destruct ((a =? p1) && (b =? l1) && (c =? p2) && (d =? l2))%nat; cbn [andb orb negb]; [|reflexivity].
      destruct (e =? p3)%nat; cbn [andb orb negb]; [|reflexivity].
      destruct (f =? l3)%nat; cbn [andb orb negb]; [rewrite andb_false_r; reflexivity|reflexivity].
    + repeat split; intros; rewrite ?H1, ?H2, ?H3; unfold t0; cbn [hits_in hits_out orb]; [| |reflexivity].
      * destruct (_ && _)%bool; cbn [length]; lia.
      * destruct (_ && _)%bool; cbn [length]; lia.
Qed.

Lemma forbidden_iff : forall S1 S2 S3 p1 l1 p2 l2 p3 l3,
  forbidden (p1, l1, entry_parity S1 p1 l1, (p2, l2, entry_parity S2 p2 l2, (p3, l3, entry_parity S3 p3 l3))) = false
  <-> path_allowed S1 S2 S3 p1 l1 p2 l2 p3 l3.
Proof.
  intros. unfold forbidden, path_allowed. rewrite orb_false_iff, !negb_false_iff, andb_true_iff, Nat.eqb_eq, !Z.leb_le. lia.
Qed.

Lemma fans_ok : forall S1 n1 S2 n2 S3 n3 F, (S1 = 1 \/ S1 = 2)%nat -> (S2 = 1 \/ S2 = 2)%nat -> (S3 = 1 \/ S3 = 2)%nat ->
  exists c1 c2 c3, parity_degree_index_parity_list S1 n1 = Ok c1 /\ parity_degree_index_parity_list S2 n2 = Ok c2
    /\ parity_degree_index_parity_list S3 n3 = Ok c3
    /\ compute_tensor_fans_and_mask [S1; n1; S2; n2; S3; n3; F] = Ok (fold_left fans_step (list_prod c1 (list_prod c2 c3))
            (mkFans (fun _ _ => 0%nat) (fun _ _ _ _ => 0%nat) (fun _ _ _ _ _ _ => true))).
Proof.
  intros S1 n1 S2 n2 S3 n3 F H1 H2 H3.
  assert (E : forall S n, (S = 1 \/ S = 2)%nat -> exists c, parity_degree_index_parity_list S n = Ok c)
    by (intros S n [->| ->]; eexists; reflexivity).
  destruct (E S1 n1 H1) as [c1 E1]. destruct (E S2 n2 H2) as [c2 E2]. destruct (E S3 n3 H3) as [c3 E3].
  exists c1, c2, c3. unfold compute_tensor_fans_and_mask. rewrite E1, E2, E3. cbn [bind]. auto.
Qed.

(** Both counts and the mask, in terms of the specification. *)
Lemma fans_spec : forall S1 n1 S2 n2 S3 n3 F s, compute_tensor_fans_and_mask [S1; n1; S2; n2; S3; n3; F] = Ok s ->
  (S1 = 1 \/ S1 = 2)%nat -> (S2 = 1 \/ S2 = 2)%nat -> (S3 = 1 \/ S3 = 2)%nat ->
  (forall p1 l1 p2 l2 p3 l3, (p1 < S1 -> l1 < n1 -> p2 < S2 -> l2 < n2 -> p3 < S3 -> l3 < n3 ->
     path_mask s p1 l1 p2 l2 p3 l3 = true <-> path_allowed S1 S2 S3 p1 l1 p2 l2 p3 l3)%nat)
  /\ (forall p3 l3, (p3 < S3)%nat -> (l3 < n3)%nat -> exactly (fan_in s p3 l3)
        (fun q => let '(p1, l1, p2, l2) := q in (p1 < S1 /\ l1 < n1 /\ p2 < S2 /\ l2 < n2)%nat
                  /\ path_allowed S1 S2 S3 p1 l1 p2 l2 p3 l3))
  /\ (forall p1 l1 p2 l2, (p1 < S1 -> l1 < n1 -> p2 < S2 -> l2 < n2 -> exactly (fan_out s p1 l1 p2 l2)
        (fun q => let '(p3, l3) := q in (p3 < S3 /\ l3 < n3) /\ path_allowed S1 S2 S3 p1 l1 p2 l2 p3 l3))%nat).
Proof.
  intros S1 n1 S2 n2 S3 n3 F s H V1 V2 V3.
  destruct (fans_ok S1 n1 S2 n2 S3 n3 F V1 V2 V3) as [c1 [c2 [c3 [E1 [E2 [E3 E]]]]]].
  rewrite H in E. injection E as E. destruct (loop (list_prod c1 (list_prod c2 c3))
    (mkFans (fun _ _ => 0%nat) (fun _ _ _ _ => 0%nat) (fun _ _ _ _ _ _ => true))) as [L1 [L2 L3]].
  rewrite <- E in L1, L2, L3. cbn [fan_in fan_out path_mask] in L1, L2, L3.
  assert (Hin : forall p1 l1 d1 p2 l2 d2 p3 l3 d3, In ((p1, l1, d1), ((p2, l2, d2), (p3, l3, d3))) (list_prod c1 (list_prod c2 c3))
    <-> ((p1 < S1 /\ l1 < n1 /\ d1 = entry_parity S1 p1 l1) /\ (p2 < S2 /\ l2 < n2 /\ d2 = entry_parity S2 p2 l2)
        /\ (p3 < S3 /\ l3 < n3 /\ d3 = entry_parity S3 p3 l3))%nat).
  { intros. rewrite in_prod_iff, in_prod_iff, (in_pld _ _ _ _ _ _ E1), (in_pld _ _ _ _ _ _ E2), (in_pld _ _ _ _ _ _ E3). reflexivity. }
  assert (Hnd : NoDup (list_prod c1 (list_prod c2 c3)))
    by (repeat apply nodup_prod; eapply nodup_pld; eassumption).
  split; [|split].
  - intros p1 l1 p2 l2 p3 l3 B1 B2 B3 B4 B5 B6. rewrite L3. cbn [andb]. rewrite negb_true_iff. rewrite <- forbidden_iff.
    set (t0 := (p1, l1, entry_parity S1 p1 l1, (p2, l2, entry_parity S2 p2 l2, (p3, l3, entry_parity S3 p3 l3)))).
    split.
    + intros Hex. destruct (forbidden t0) eqn:Hf; [|reflexivity]. rewrite <- Hex. symmetry. apply existsb_exists. exists t0.
      split; [apply Hin; lia|]. rewrite Hf. unfold t0, hits_in, hits_out. rewrite !Nat.eqb_refl. reflexivity.
    + intros Hf. apply not_true_is_false. intros Hex. apply existsb_exists in Hex.
      destruct Hex as [[[[q1 m1] d1] [[[q2 m2] d2] [[q3 m3] d3]]] [Ht Hx]]. apply Hin in Ht.
      apply andb_prop in Hx. destruct Hx as [Hx Hy]. apply andb_prop in Hx. destruct Hx as [Hx Hz].
      unfold hits_in in Hz. unfold hits_out in Hy. rewrite !andb_true_iff, !Nat.eqb_eq in Hz. rewrite andb_true_iff, !Nat.eqb_eq in Hy.
      destruct Ht as [[_ [_ ->]] [[_ [_ ->]] [_ [_ ->]]]]. destruct Hz as [[[<- <-] <-] <-]. destruct Hy as [<- <-].
      fold t0 in Hx. congruence.
  - intros p3 l3 B1 B2. rewrite L1. cbn [Nat.add].
    set (ts := filter (fun t => negb (forbidden t) && hits_out p3 l3 t) (list_prod c1 (list_prod c2 c3))).
    assert (Hts : forall p1 l1 d1 p2 l2 d2 q3 m3 d3, In ((p1, l1, d1), ((p2, l2, d2), (q3, m3, d3))) ts <->
      ((p1 < S1 /\ l1 < n1 /\ p2 < S2 /\ l2 < n2)%nat /\ q3 = p3 /\ m3 = l3 /\ d1 = entry_parity S1 p1 l1 /\ d2 = entry_parity S2 p2 l2
       /\ d3 = entry_parity S3 p3 l3 /\ path_allowed S1 S2 S3 p1 l1 p2 l2 p3 l3)).
    { intros. unfold ts. rewrite filter_In, Hin, andb_true_iff, negb_true_iff. unfold hits_out. rewrite andb_true_iff, !Nat.eqb_eq. split.
      - intros [[[A1 [A2 ->]] [[A3 [A4 ->]] [A5 [A6 ->]]]] [Hf [-> ->]]]. apply forbidden_iff in Hf. repeat split; auto; try apply Hf.
      - intros [[A1 [A2 [A3 A4]]] [-> [-> [-> [-> [-> Hf]]]]]]. apply forbidden_iff in Hf. repeat split; auto. }
    exists (map (fun t : triple => let '((p1, l1, _), ((p2, l2, _), _)) := t in (p1, l1, p2, l2)) ts). split; [|split].
    + apply nodup_map; [apply NoDup_filter; exact Hnd|].
      intros [[[p1 l1] d1] [[[p2 l2] d2] [[q3 m3] d3]]] [[[p1' l1'] d1'] [[[p2' l2'] d2'] [[q3' m3'] d3']]] Ha Hb Heq.
      apply Hts in Ha, Hb. injection Heq as <- <- <- <-. destruct Ha as [_ [-> [-> [-> [-> [-> _]]]]]].
      destruct Hb as [_ [-> [-> [-> [-> [-> _]]]]]]. reflexivity.
    + apply map_length.
    + intros [[[p1 l1] p2] l2]. rewrite in_map_iff. split.
      * intros [[[[q1 m1] d1] [[[q2 m2] d2] [[q3 m3] d3]]] [Heq Ht]]. injection Heq as -> -> -> ->. apply Hts in Ht. tauto.
      * intros [Hr Hp]. exists ((p1, l1, entry_parity S1 p1 l1), ((p2, l2, entry_parity S2 p2 l2), (p3, l3, entry_parity S3 p3 l3))).
        split; [reflexivity|]. apply Hts. tauto.
  - intros p1 l1 p2 l2 B1 B2 B3 B4. rewrite L2. cbn [Nat.add].
    set (ts := filter (fun t => negb (forbidden t) && hits_in p1 l1 p2 l2 t) (list_prod c1 (list_prod c2 c3))).
    assert (Hts : forall q1 m1 d1 q2 m2 d2 p3 l3 d3, In ((q1, m1, d1), ((q2, m2, d2), (p3, l3, d3))) ts <->
      ((p3 < S3 /\ l3 < n3)%nat /\ q1 = p1 /\ m1 = l1 /\ q2 = p2 /\ m2 = l2 /\ d1 = entry_parity S1 p1 l1 /\ d2 = entry_parity S2 p2 l2
       /\ d3 = entry_parity S3 p3 l3 /\ path_allowed S1 S2 S3 p1 l1 p2 l2 p3 l3)).
    { intros. unfold ts. rewrite filter_In, Hin, andb_true_iff, negb_true_iff. unfold hits_in. rewrite !andb_true_iff, !Nat.eqb_eq. split.
      - intros [[[A1 [A2 ->]] [[A3 [A4 ->]] [A5 [A6 ->]]]] [Hf [[[-> ->] ->] ->]]]. apply forbidden_iff in Hf. repeat split; auto; try apply Hf.
      - intros [[A1 A2] [-> [-> [-> [-> [-> [-> [-> Hf]]]]]]]]. apply forbidden_iff in Hf. repeat split; auto. }
    exists (map (fun t : triple => let '(_, (_, (p3, l3, _))) := t in (p3, l3)) ts). split; [|split].
    + apply nodup_map; [apply NoDup_filter; exact Hnd|].
      intros [[[q1 m1] d1] [[[q2 m2] d2] [[q3 m3] d3]]] [[[q1' m1'] d1'] [[[q2' m2'] d2'] [[q3' m3'] d3']]] Ha Hb Heq.
      apply Hts in Ha, Hb. injection Heq as <- <-. destruct Ha as [_ [-> [-> [-> [-> [-> [-> [-> _]]]]]]]].
      destruct Hb as [_ [-> [-> [-> [-> [-> [-> [-> _]]]]]]]]. reflexivity.
    + apply map_length.
    + intros [p3 l3]. rewrite in_map_iff. split.
      * intros [[[[q1 m1] d1] [[[q2 m2] d2] [[q3 m3] d3]]] [Heq Ht]]. injection Heq as -> ->. apply Hts in Ht. tauto.
      * intros [Hr Hp]. exists ((p1, l1, entry_parity S1 p1 l1), ((p2, l2, entry_parity S2 p2 l2), (p3, l3, entry_parity S3 p3 l3))).
        split; [reflexivity|]. apply Hts. tauto.
Qed.

Lemma exactly_pos : forall (A : Type) n (P : A -> Prop) a, exactly n P -> P a -> (0 < n)%nat.
Proof.
  intros A n P a [l [_ [<- H]]] Ha. apply H in Ha. destruct l; [destruct Ha|cbn; lia].
Qed.

Lemma exactly_unique : forall (A : Type) n m (P : A -> Prop), exactly n P -> exactly m P -> n = m.
Proof.
  intros A n m P [l [Hl [<- H]]] [l' [Hl' [<- H']]].
  apply Nat.le_antisymm; apply NoDup_incl_length; try assumption; intros a Ha; [apply H', H|apply H, H']; exact Ha.
Qed.
