(** More proofs about matrices of matrices: the whole matrix, multiplicities, traces, rotation. *)
Require Import List Reals ZArith Bool Lia Lra.
Require Import ZifyNat.
Require Import Verif.Base Verif.RSum Verif.Matmat_Model Verif.Matmat_Spec Verif.Matmat_Proofs Verif.Modules_Spec.
Import ListNotations.
Open Scope R_scope.
Ltac Zify.zify_post_hook ::= Z.div_mod_to_equations.
Arguments Nat.mul : simpl never.

Lemma list_max1_spec : forall l m, list_max1 l = Ok m <-> max_of l m.
Proof.
  intros l m. destruct l as [|a t]; [split; [discriminate|intros [[] _]]|]. cbn [list_max1].
  assert (G : forall t a, max_of (a :: t) (fold_left Nat.max t a)).
  { clear. induction t as [|b t IH]; intros a; cbn [fold_left].
    - split; [left; reflexivity|]. intros x [<-|[]]. lia.
    - destruct (IH (Nat.max a b)) as [H1 H2]. split.
      + destruct H1 as [H1|H1]; [|right; right; exact H1]. destruct (Nat.max_spec a b) as [[_ E]|[_ E]]; rewrite E in *; [right; left|left]; congruence.
      + intros x [<-|[<-|Hx]].
        * pose proof (H2 (Nat.max a b) ltac:(left; reflexivity)). lia.
        * pose proof (H2 (Nat.max a b) ltac:(left; reflexivity)). lia.
        * apply H2. right. exact Hx. }
  destruct (G t a) as [G1 G2]. split.
  - intros [= <-]. split; assumption.
  - intros [H1 H2]. f_equal. apply Nat.le_antisymm; [apply H2; exact G1|apply G2; exact H1].
Qed.

Lemma fold_add_sum : forall l a, fold_left Nat.add l a = (a + list_sum l)%nat.
Proof. induction l as [|x l IH]; intros a; cbn [fold_left list_sum fold_right]; [lia|]. rewrite IH. unfold list_sum. lia. Qed.

Lemma offset_all : forall degrees mult, (fold_left Nat.add (compute_side_lengths degrees) 0 * mult)%nat = offset degrees mult (length degrees).
Proof. intros. rewrite fold_add_sum. unfold offset, compute_side_lengths. rewrite firstn_all. lia. Qed.

Lemma rows_odd : forall N number irreps, irreps_shape N number irreps -> existsb (fun x => (rows x mod 2 =? 0)%nat) irreps = false.
Proof.
  intros N number irreps [_ H]. apply not_true_is_false. intros E. apply existsb_exists in E. destruct E as [x [Hx E]].
  apply In_nth_error in Hx. destruct Hx as [l Hl]. destruct (H l x Hl) as [Hr _]. apply Nat.eqb_eq in E. lia.
Qed.

Section Square.
Variable clebsch_gordan : Z -> Z -> Z -> result (nat -> nat -> nat -> R).

Lemma square_ok : forall irreps N number degrees mult L md shift C,
  irreps_shape N number irreps -> (0 < N <= md + 1)%nat -> max_of degrees L -> (L <= md)%nat ->
  clebsch_gordan (Z.of_nat L) (Z.of_nat L) (Z.of_nat md) = Ok C ->
  (forall l, (l < N)%nat -> (total_with degrees l * (mult * mult) <= number l)%nat) ->
  exists M, make_square_matrix clebsch_gordan irreps degrees mult md shift = Ok M
  /\ rows M = offset degrees mult (length degrees) /\ cols M = offset degrees mult (length degrees)
  /\ forall A i u B j v, in_group degrees mult A i u -> in_group degrees mult B j v ->
       val M (position degrees mult A i u) (position degrees mult B j v)
       = assembled C N degrees mult irreps A i u B j v
         + (if shift then eye (position degrees mult A i u) (position degrees mult B j v) else 0).
Proof.
  intros irreps N number degrees mult L md shift C HS HN HM HL HC Hfit. unfold make_square_matrix.
  rewrite (proj2 (list_max1_spec degrees L) HM). cbn [bind]. destruct (Nat.ltb_spec md L); [lia|].
  rewrite (rows_odd _ _ _ HS), HC. cbn [bind].
  set (cg := mkT3 ((L + 1) * (L + 1)) ((L + 1) * (L + 1)) ((md + 1) * (md + 1)) C).
  destruct (outer_ok irreps N degrees mult cg shift number ltac:(lia) HS) with (A := length degrees) as [m [idx [E [_ V]]]].
  - intros A HA. assert (degree_at degrees A <= L)%nat by (apply HM; apply nth_In; exact HA). cbn [t1 t2 cg]. split; nia.
  - cbn [t3 cg]. nia.
  - apply HS.
  - lia.
  - intros l Hl. rewrite firstn_all2 by (rewrite prod_length; lia). apply Hfit. exact Hl.
  - rewrite firstn_all2 in E by (unfold compute_side_lengths; rewrite map_length; lia). rewrite E. cbn [bind].
    eexists. split; [reflexivity|]. split; [apply offset_all|]. split; [apply offset_all|].
    intros A i u B j v Hu Hv. cbn [val]. apply V; [apply Hu|assumption|assumption].
Qed.

Lemma square_inv : forall irreps N number degrees mult L md shift C M,
  irreps_shape N number irreps -> (0 < N <= md + 1)%nat -> max_of degrees L -> (L <= md)%nat ->
  clebsch_gordan (Z.of_nat L) (Z.of_nat L) (Z.of_nat md) = Ok C ->
  make_square_matrix clebsch_gordan irreps degrees mult md shift = Ok M ->
  forall l, (l < N)%nat -> (total_with degrees l * (mult * mult) <= number l)%nat.
Proof.
  intros irreps N number degrees mult L md shift C M HS HN HM HL HC H. unfold make_square_matrix in H.
  rewrite (proj2 (list_max1_spec degrees L) HM) in H. cbn [bind] in H. destruct (Nat.ltb_spec md L); [lia|].
  rewrite (rows_odd _ _ _ HS), HC in H. cbn [bind] in H.
  set (cg := mkT3 ((L + 1) * (L + 1)) ((L + 1) * (L + 1)) ((md + 1) * (md + 1)) C) in H.
  destruct (fold_left (outer_step irreps cg mult shift (compute_side_lengths degrees)) (compute_side_lengths degrees)
      (Ok (fun _ _ => 0, repeat 0%nat (length irreps), 0%nat))) as [s|] eqn:E; [|discriminate].
  assert (F : fit N degrees mult number (length degrees * length degrees)).
  { refine (outer_inv irreps N degrees mult cg shift number _ HS _ _ (proj1 HS) (length degrees) s (le_n _) _).
    - lia.
    - intros A HA. assert (degree_at degrees A <= L)%nat by (apply HM; apply nth_In; exact HA). cbn [t1 t2 cg]. split; nia.
    - cbn [t3 cg]. nia.
    - rewrite firstn_all2 by (unfold compute_side_lengths; rewrite map_length; lia). exact E. }
  intros l Hl. specialize (F l Hl). rewrite firstn_all2 in F by (rewrite prod_length; lia). exact F.
Qed.

End Square.

(** ** Multiplicities *)

Lemma lookup_increment : forall d l k, lookup (increment d l) k = (lookup d k + if (l =? k)%nat then 1 else 0)%nat.
Proof.
  induction d as [|[a n] d IH]; intros l k; cbn [increment lookup].
  - destruct (Nat.eqb_spec l k); reflexivity.
  - destruct (Nat.eqb_spec a l) as [->|Hal]; cbn [lookup].
    + destruct (Nat.eqb_spec l k); lia.
    + destruct (Nat.eqb_spec a k) as [->|Hak]; [destruct (Nat.eqb_spec l k); [congruence|lia]|apply IH].
Qed.

Lemma lookup_increments : forall n a d k,
  lookup (fold_left increment (seq a n) d) k = (lookup d k + if (a <=? k) && (k <? a + n) then 1 else 0)%nat.
Proof.
  induction n as [|n IH]; intros a d k; cbn [seq fold_left].
  - destruct (Nat.leb_spec a k), (Nat.ltb_spec k (a + 0)); cbn [andb]; lia.
  - rewrite IH, lookup_increment. destruct (Nat.eqb_spec a k) as [->|Hne].
    + destruct (Nat.leb_spec (S k) k), (Nat.leb_spec k k), (Nat.ltb_spec k (k + S n)); cbn [andb]; lia.
    + destruct (Nat.leb_spec (S a) k), (Nat.leb_spec a k), (Nat.ltb_spec k (S a + n)), (Nat.ltb_spec k (a + S n)); cbn [andb]; lia.
Qed.

Lemma lookup_dict : forall degrees md l, lookup (make_dict_irreps_mult degrees md) l = multiplicity degrees md l.
Proof.
  intros degrees md l. unfold make_dict_irreps_mult, multiplicity, total_with.
  assert (G : forall ps d, lookup (fold_left (fun d p => let '(la, lb) := p in
      let max_l := match md with None => (la + lb)%nat | Some m => Nat.min (la + lb) m end in
      fold_left increment (nrange (absdiff la lb) (max_l + 1)) d) ps d) l
    = (lookup d l + match md with Some m => if (l <=? m)%nat then blocks_with l ps else 0 | None => blocks_with l ps end)%nat).
  { induction ps as [|[la lb] ps IH]; intros d; cbn [fold_left].
    - unfold blocks_with. cbn. destruct md as [m|]; [destruct (l <=? m)%nat|]; lia.
    - rewrite IH. unfold nrange. rewrite lookup_increments.
      assert (EB : blocks_with l ((la, lb) :: ps) = ((if triangle la lb l then 1 else 0) + blocks_with l ps)%nat).
      { unfold blocks_with. cbn [filter fst snd]. destruct (triangle la lb l); reflexivity. }
      rewrite EB. pose proof (triangle_iff la lb l) as HT.
      destruct (triangle la lb l).
      + destruct HT as [HT _]. specialize (HT eq_refl). destruct md as [m|].
        * destruct (Nat.leb_spec l m); [|];
          destruct (Nat.leb_spec (absdiff la lb) l), (Nat.ltb_spec l (absdiff la lb + (Nat.min (la + lb) m + 1 - absdiff la lb))); cbn [andb]; lia.
        * destruct (Nat.leb_spec (absdiff la lb) l), (Nat.ltb_spec l (absdiff la lb + (la + lb + 1 - absdiff la lb))); cbn [andb]; lia.
      + destruct HT as [_ HT]. destruct md as [m|].
        * destruct (Nat.leb_spec l m); [|];
          destruct (Nat.leb_spec (absdiff la lb) l), (Nat.ltb_spec l (absdiff la lb + (Nat.min (la + lb) m + 1 - absdiff la lb))); cbn [andb]; try lia;
          discriminate HT; lia.
        * destruct (Nat.leb_spec (absdiff la lb) l), (Nat.ltb_spec l (absdiff la lb + (la + lb + 1 - absdiff la lb))); cbn [andb]; try lia;
          discriminate HT; lia. }
  rewrite G. reflexivity.
Qed.

Definition positive (d : list (nat * nat)) : Prop := forall k x, In (k, x) d -> (0 < x)%nat.

Lemma increment_positive : forall d l, positive d -> positive (increment d l).
Proof.
  induction d as [|[a n] d IH]; intros l H k x; cbn [increment].
  - intros [[= <- <-]|[]]. lia.
  - destruct (a =? l)%nat.
    + intros [[= <- <-]|Hx]; [lia|]. apply (H k x). right. exact Hx.
    + intros [[= <- <-]|Hx]; [apply (H a n); left; reflexivity|]. apply (IH l) with (k := k); [|exact Hx]. intros k' x' H'. apply (H k' x'). right. exact H'.
Qed.

Lemma dict_positive : forall degrees md, positive (make_dict_irreps_mult degrees md).
Proof.
  intros degrees md. unfold make_dict_irreps_mult.
  assert (G : forall ls d, positive d -> positive (fold_left increment ls d)).
  { induction ls as [|l ls IH]; intros d H; cbn; [exact H|]. apply IH, increment_positive, H. }
  assert (G2 : forall ps d, positive d -> positive (fold_left (fun d p => let '(la, lb) := p in
      let max_l := match md with None => (la + lb)%nat | Some m => Nat.min (la + lb) m end in
      fold_left increment (nrange (absdiff la lb) (max_l + 1)) d) ps d)).
  { induction ps as [|[la lb] ps IH]; intros d H; cbn [fold_left]; [exact H|]. apply IH, G, H. }
  apply G2. intros k x [].
Qed.

Lemma dict_keys : forall d, positive d -> forall k, In k (map fst d) <-> (0 < lookup d k)%nat.
Proof.
  induction d as [|[a n] d IH]; intros H k; cbn [map fst lookup In].
  - split; [intros []|lia].
  - assert (Hd : positive d) by (intros k' x' H'; apply (H k' x'); right; exact H'). specialize (IH Hd k).
    destruct (Nat.eqb_spec a k) as [->|Hne].
    + split; [intros _; apply (H k n); left; reflexivity|auto].
    + rewrite <- IH. split; [intros [E|Hk]; [congruence|exact Hk]|auto].
Qed.

Lemma dict_max : forall degrees L md, max_of degrees L ->
  list_max1 (map fst (make_dict_irreps_mult degrees (Some md))) = Ok (Nat.min (L + L) md).
Proof.
  intros degrees L md [HL HM]. apply list_max1_spec.
  assert (K : forall k, In k (map fst (make_dict_irreps_mult degrees (Some md))) <-> (k <= Nat.min (L + L) md /\ 0 < total_with degrees k)%nat).
  { intros k. rewrite (dict_keys _ (dict_positive _ _)), lookup_dict. unfold multiplicity. destruct (Nat.leb_spec k md) as [Hk|Hk].
    - split; [|tauto]. intros H. split; [|exact H]. assert (exists p, In p (filter (fun p => triangle (fst p) (snd p) k) (list_prod degrees degrees))) as [[a b] Hp].
      { unfold total_with, blocks_with in H. destruct (filter _ _) as [|p ps]; [cbn in H; lia|]. exists p. left. reflexivity. }
      apply filter_In in Hp. destruct Hp as [Hp Ht]. apply in_prod_iff in Hp. destruct Hp as [Ha Hb]. apply HM in Ha. apply HM in Hb. cbn [fst snd] in Ht.
      apply triangle_iff in Ht. lia.
    - lia. }
  assert (P : forall k, (k <= L + L)%nat -> (0 < total_with degrees k)%nat).
  { intros k Hk. unfold total_with, blocks_with. assert (Hin : In (L, L) (filter (fun p => triangle (fst p) (snd p) k) (list_prod degrees degrees))).
    { apply filter_In. split; [apply in_prod_iff; auto|]. cbn [fst snd]. apply triangle_iff. unfold absdiff. lia. }
    destruct (filter _ _); [destruct Hin|cbn; lia]. }
  split.
  - apply K. split; [lia|]. apply P. lia.
  - intros x Hx. apply K in Hx. lia.
Qed.

(** ** Weights and combination *)

Lemma nth_error_map_seq : forall (B : Type) (f : nat -> B) n l x, nth_error (map f (seq 0 n)) l = Some x -> (l < n)%nat /\ x = f l.
Proof.
  intros B f n l x H. assert (Hl : (l < n)%nat).
  { assert (l < length (map f (seq 0 n)))%nat by (apply nth_error_Some; congruence). rewrite map_length, seq_length in H0. exact H0. }
  split; [exact Hl|]. rewrite nth_error_map in H. rewrite (nth_error_nth' _ 0%nat) in H by (rewrite seq_length; exact Hl).
  rewrite seq_nth in H by exact Hl. cbn in H. congruence.
Qed.

Lemma combine_shape : forall inputs weights N F number,
  length weights = N -> cols inputs = F -> (N * N <= rows inputs)%nat ->
  (forall l w, nth_error weights l = Some w -> rows w = F /\ cols w = number l) ->
  exists irreps, combine_irreps inputs weights = Ok irreps /\ irreps_shape N number irreps
  /\ forall l w k c, nth_error weights l = Some w ->
       irrep irreps l k c = rsum F (fun i => val w i c * val inputs (l * l + k)%nat i).
Proof.
  intros inputs weights N F number HN HF HR HW. unfold combine_irreps.
  assert (E : forallb (fun w => (rows w =? cols inputs)%nat) weights = true).
  { apply forallb_forall. intros w Hw. apply In_nth_error in Hw. destruct Hw as [l Hl]. apply Nat.eqb_eq. rewrite HF. apply (HW l w Hl). }
  rewrite E. set (f := fun p : nat * mat => let '(l, w) := p in
     mkMat (rows (slice_rows inputs (l * l) ((l + 1) * (l + 1)))) (cols w) (fun v o => rsum (cols inputs) (fun i => val w i o * val (slice_rows inputs (l * l) ((l + 1) * (l + 1))) v i))).
  assert (NE : forall l w, nth_error weights l = Some w -> nth_error (map f (combine (seq 0 (length weights)) weights)) l = Some (f (l, w))).
  { intros l w Hl. rewrite nth_error_map. assert (G : forall ws a l, nth_error ws l = Some w -> nth_error (combine (seq a (length ws)) ws) l = Some ((a + l)%nat, w)).
    { clear. induction ws as [|y ws IH]; intros a [|l] H; cbn in *; try discriminate.
      - injection H as ->. replace (a + 0)%nat with a by lia. reflexivity.
      - rewrite (IH (S a) l H). f_equal. f_equal. lia. }
    rewrite (G weights 0%nat l Hl). reflexivity. }
  assert (LE : length (map f (combine (seq 0 (length weights)) weights)) = N).
  { rewrite map_length, combine_length, seq_length, Nat.min_id. exact HN. }
  exists (map f (combine (seq 0 (length weights)) weights)). split; [reflexivity|]. split.
  - split; [exact LE|]. intros l x Hx.
    assert (Hl : (l < N)%nat) by (rewrite <- LE; apply nth_error_Some; congruence).
    destruct (nth_error weights l) as [w|] eqn:Ew; [|apply nth_error_None in Ew; lia].
    rewrite (NE l w Ew) in Hx. injection Hx as <-. destruct (HW l w Ew) as [_ Hc]. cbn [rows cols f slice_rows]. split; [|exact Hc].
    assert ((l + 1) * (l + 1) <= N * N)%nat by nia. lia.
  - intros l w k c Ew. unfold irrep. rewrite (NE l w Ew). cbn [val f slice_rows]. rewrite HF. reflexivity.
Qed.

Lemma weights_shape : forall normal n_shells degrees md mult stddev L, max_of degrees L ->
  exists weights, init_matrix_irreps_weights normal n_shells (make_dict_irreps_mult degrees (Some md)) mult stddev = Ok weights
  /\ length weights = (Nat.min (L + L) md + 1)%nat
  /\ forall l w, nth_error weights l = Some w -> rows w = n_shells /\ cols w = (total_with degrees l * (mult * mult))%nat
       /\ forall i c, val w i c = normal l i c * stddev / sqrt (INR (2 * l + 1)).
Proof.
  intros normal n_shells degrees md mult stddev L HM. unfold init_matrix_irreps_weights.
  rewrite (dict_max degrees L md HM). cbn [bind]. eexists. split; [reflexivity|].
  unfold nrange. replace (Nat.min (L + L) md + 1 - 0)%nat with (Nat.min (L + L) md + 1)%nat by lia.
  split; [rewrite map_length, seq_length; reflexivity|]. intros l w H. apply nth_error_map_seq in H. destruct H as [Hl ->]. cbn [rows cols val].
  split; [reflexivity|]. split; [|reflexivity]. rewrite lookup_dict. unfold multiplicity. destruct (Nat.leb_spec l md); [|lia]. lia.
Qed.

(** ** Every irrep is used exactly once *)

Lemma column_lt : forall degrees mult l A B i j, (A < length degrees)%nat -> (B < length degrees)%nat -> (i < mult)%nat -> (j < mult)%nat ->
  triangle (degree_at degrees A) (degree_at degrees B) l = true ->
  (column degrees mult l A B i j < total_with degrees l * (mult * mult))%nat.
Proof.
  intros degrees mult l A B i j HA HB Hi Hj HT. unfold column, total_with.
  set (q := (A * length degrees + B)%nat). assert (Hq : (q < length (list_prod degrees degrees))%nat) by (rewrite prod_length; unfold q; nia).
  assert (H1 : (blocks_with l (firstn (S q) (list_prod degrees degrees)) <= blocks_with l (list_prod degrees degrees))%nat) by apply blocks_with_firstn.
  rewrite blocks_with_step in H1 by exact Hq. unfold q in H1. rewrite nth_list_prod in H1 by assumption. cbn [fst snd] in H1.
  unfold degree_at in HT. rewrite HT in H1. fold q in H1. nia.
Qed.

Lemma blocks_with_mono : forall l p q L, (p <= q)%nat -> (blocks_with l (firstn p L) <= blocks_with l (firstn q L))%nat.
Proof.
  intros. replace (firstn p L) with (firstn p (firstn q L)); [apply blocks_with_firstn|]. rewrite firstn_firstn. f_equal. lia.
Qed.

Lemma column_inj : forall degrees mult l A B i j A' B' i' j',
  (A < length degrees)%nat -> (B < length degrees)%nat -> (i < mult)%nat -> (j < mult)%nat ->
  (A' < length degrees)%nat -> (B' < length degrees)%nat -> (i' < mult)%nat -> (j' < mult)%nat ->
  triangle (degree_at degrees A) (degree_at degrees B) l = true -> triangle (degree_at degrees A') (degree_at degrees B') l = true ->
  column degrees mult l A B i j = column degrees mult l A' B' i' j' -> A = A' /\ B = B' /\ i = i' /\ j = j'.
Proof.
  intros degrees mult l A B i j A' B' i' j' HA HB Hi Hj HA' HB' Hi' Hj' HT HT' E. unfold column in E.
  set (P := list_prod degrees degrees) in *. set (n := length degrees) in *.
  assert (S1 : forall A B, (A < n)%nat -> (B < n)%nat -> triangle (degree_at degrees A) (degree_at degrees B) l = true ->
     blocks_with l (firstn (S (A * n + B)) P) = S (blocks_with l (firstn (A * n + B) P))).
  { intros A0 B0 H1 H2 H3. unfold P. rewrite blocks_with_step by (rewrite prod_length; fold n; nia). unfold n in *. rewrite nth_list_prod by assumption. cbn [fst snd].
    unfold degree_at in H3. rewrite H3. lia. }
  pose proof (S1 A B HA HB HT) as E1. pose proof (S1 A' B' HA' HB' HT') as E2.
  assert (Hij : (i * mult + j < mult * mult)%nat) by nia. assert (Hij' : (i' * mult + j' < mult * mult)%nat) by nia.
  set (b := blocks_with l (firstn (A * n + B) P)) in *. set (b' := blocks_with l (firstn (A' * n + B') P)) in *.
  assert (Eb : b = b') by nia.
  assert (Eq : (A * n + B = A' * n + B')%nat).
  { destruct (Nat.lt_trichotomy (A * n + B) (A' * n + B')) as [Hl|[He|Hl]]; [|exact He|].
    - pose proof (blocks_with_mono l (S (A * n + B)) (A' * n + B') P Hl). fold b' in H. lia.
    - pose proof (blocks_with_mono l (S (A' * n + B')) (A * n + B) P Hl). fold b in H. lia. }
  assert (EA : A = A') by nia. subst A'. split; [reflexivity|]. split; [lia|].
  assert (Eij : (i * mult + j = i' * mult + j')%nat) by lia. assert (i = i') by nia. subst i'. split; [reflexivity|lia].
Qed.

Lemma column_surj : forall degrees mult l c, (c < total_with degrees l * (mult * mult))%nat ->
  exists A B i j, (A < length degrees)%nat /\ (B < length degrees)%nat /\ (i < mult)%nat /\ (j < mult)%nat
  /\ triangle (degree_at degrees A) (degree_at degrees B) l = true /\ column degrees mult l A B i j = c.
Proof.
  intros degrees mult l c Hc. unfold column, total_with in *. set (P := list_prod degrees degrees) in *. set (n := length degrees).
  assert (Hm : (0 < mult)%nat) by (destruct mult; [lia|lia]).
  set (t := (c / (mult * mult))%nat). assert (Ht : (t < blocks_with l P)%nat) by (apply Nat.div_lt_upper_bound; [nia|lia]).
  assert (Hlen : length P = (n * n)%nat) by apply prod_length.
  assert (G : forall q, (q <= length P)%nat -> (t < blocks_with l (firstn q P))%nat -> exists q', (q' < q)%nat /\ blocks_with l (firstn q' P) = t
     /\ triangle (fst (nth q' P (0, 0)%nat)) (snd (nth q' P (0, 0)%nat)) l = true).
  { induction q as [|q IH]; intros Hq Hb; [unfold blocks_with in Hb; cbn in Hb; lia|].
    rewrite blocks_with_step in Hb by lia. destruct (Nat.lt_ge_cases t (blocks_with l (firstn q P))) as [Hlt|Hge].
    - destruct (IH ltac:(lia) Hlt) as [q' [H1 H2]]. exists q'. split; [lia|exact H2].
    - exists q. split; [lia|]. destruct (triangle _ _ l); [|lia]. split; [lia|reflexivity]. }
  destruct (G (length P) (le_n _)) as [q [Hq [Eq ET]]]; [rewrite firstn_all; exact Ht|].
  assert (Hn : (0 < n)%nat) by nia.
  assert (HA : (q / n < n)%nat) by (apply Nat.div_lt_upper_bound; lia). assert (HB : (q mod n < n)%nat) by (apply Nat.mod_upper_bound; lia).
  assert (Edq : q = (q / n * n + q mod n)%nat) by (pose proof (Nat.div_mod q n ltac:(lia)); lia).
  set (w := (c mod (mult * mult))%nat). assert (Hw : (w < mult * mult)%nat) by (apply Nat.mod_upper_bound; nia).
  exists (q / n)%nat, (q mod n)%nat, (w / mult)%nat, (w mod mult)%nat.
  split; [exact HA|]. split; [exact HB|]. split; [apply Nat.div_lt_upper_bound; lia|]. split; [apply Nat.mod_upper_bound; lia|]. split.
  - rewrite Edq in ET. unfold P, n in ET. rewrite nth_list_prod in ET by assumption. exact ET.
  - fold n. rewrite <- Edq, Eq. pose proof (Nat.div_mod w mult ltac:(lia)). pose proof (Nat.div_mod c (mult * mult) ltac:(nia)). unfold t. fold w in H0. lia.
Qed.

(** ** Traces *)

Lemma traces_ok : forall x degrees mult shift,
  length (get_traces x degrees mult shift) = (length degrees * (mult * mult))%nat
  /\ forall A i j, (A < length degrees)%nat -> (i < mult)%nat -> (j < mult)%nat ->
     nth_error (get_traces x degrees mult shift) (A * (mult * mult) + (i * mult + j))
     = Some (rsum (2 * degree_at degrees A + 1) (fun u => val x (position degrees mult A i u) (position degrees mult A j u))
             - (if shift && (i =? j)%nat then INR (2 * degree_at degrees A + 1) else 0)).
Proof.
  intros x degrees mult shift. unfold get_traces.
  set (f := fun s l => let '(out, start) := s in
         let a := (2 * l + 1)%nat in
         (out ++ map (fun p => let '(i, j) := p in
                        block_trace (val x) (start + i * a) (start + j * a) a - (if shift && (i =? j)%nat then INR a else 0))
                   (list_prod (seq 0 mult) (seq 0 mult)),
          (start + a * mult)%nat)).
  assert (G : forall A, (A <= length degrees)%nat -> exists out, fold_left f (firstn A degrees) ([], 0%nat) = (out, offset degrees mult A)
     /\ length out = (A * (mult * mult))%nat
     /\ forall A' i j, (A' < A)%nat -> (i < mult)%nat -> (j < mult)%nat ->
        nth_error out (A' * (mult * mult) + (i * mult + j))
        = Some (rsum (2 * degree_at degrees A' + 1) (fun u => val x (position degrees mult A' i u) (position degrees mult A' j u))
                - (if shift && (i =? j)%nat then INR (2 * degree_at degrees A' + 1) else 0))).
  { induction A as [|A IH]; intros HA.
    - exists []. split; [cbn [firstn fold_left]; f_equal; unfold offset; cbn; lia|]. split; [cbn; lia|]. intros; lia.
    - destruct (IH ltac:(lia)) as [out [E [EL V]]]. rewrite (firstn_S_nth _ 0%nat) by lia. rewrite fold_left_app, E. cbn [fold_left].
      unfold f at 1. fold (degree_at degrees A). rewrite <- (offset_S degrees mult A) by lia.
      eexists. split; [reflexivity|]. split.
      + rewrite app_length, map_length, prod_length, seq_length, EL. lia.
      + intros A' i j HA' Hi Hj. assert (Hij : (i * mult + j < mult * mult)%nat) by nia.
        destruct (Nat.eq_dec A' A) as [->|Hne].
        * rewrite nth_error_app2 by lia. rewrite EL. replace (A * (mult * mult) + (i * mult + j) - A * (mult * mult))%nat with (i * mult + j)%nat by lia.
          rewrite nth_error_map. rewrite (nth_error_nth' _ (0, 0)%nat) by (rewrite prod_length, seq_length; exact Hij).
          assert (En : nth (i * mult + j) (list_prod (seq 0 mult) (seq 0 mult)) (0, 0)%nat = (i, j)).
          { replace (i * mult + j)%nat with (i * length (seq 0 mult) + j)%nat by (rewrite seq_length; reflexivity).
            rewrite nth_list_prod by (rewrite seq_length; assumption). rewrite !seq_nth by assumption. reflexivity. }
          rewrite En. cbn [option_map]. reflexivity.
        * rewrite nth_error_app1 by nia. apply V; lia. }
  destruct (G (length degrees) (le_n _)) as [out [E [EL V]]]. rewrite firstn_all in E. rewrite E. cbn [fst]. split; [exact EL|]. exact V.
Qed.

Lemma cg_trace : forall n1 n3 C la l k, cg_orthonormal n1 n3 C -> cg_scalar n1 C -> (la < n1)%nat -> (l < n3)%nat -> (k < 2 * l + 1)%nat -> (l <= la + la)%nat ->
  rsum (2 * la + 1) (fun u => C (la * la + u)%nat (la * la + u)%nat (l * l + k)%nat) = if (l =? 0)%nat then sqrt (INR (2 * la + 1)) else 0.
Proof.
  intros n1 n3 C la l k HO HS Hla Hl Hk Hll.
  assert (Hp : 0 < INR (2 * la + 1)) by (apply lt_0_INR; lia). assert (Hs : sqrt (INR (2 * la + 1)) <> 0) by (apply Rgt_not_eq, sqrt_lt_R0, Hp).
  pose proof (HO la 0%nat l 0%nat k Hla ltac:(lia) Hl ltac:(lia) Hk ltac:(lia) Hll) as E.
  assert (E2 : rsum (2 * la + 1) (fun u => rsum (2 * la + 1) (fun v =>
      C (la * la + u)%nat (la * la + v)%nat (0 * 0 + 0)%nat * C (la * la + u)%nat (la * la + v)%nat (l * l + k)%nat))
    = / sqrt (INR (2 * la + 1)) * rsum (2 * la + 1) (fun u => C (la * la + u)%nat (la * la + u)%nat (l * l + k)%nat)).
  { rewrite <- rsum_scal_l. apply rsum_ext. intros u Hu. change (0 * 0 + 0)%nat with 0%nat.
    rewrite (rsum_single _ _ u Hu).
    - rewrite HS by assumption. rewrite Nat.eqb_refl. unfold Rdiv. ring.
    - intros v Hv Hne. rewrite HS by assumption. destruct (Nat.eqb_spec u v); [congruence|]. unfold Rdiv. ring. }
  rewrite E2 in E. change (0 * 0 + 0)%nat with 0%nat in E.
  apply (Rmult_eq_reg_l (/ sqrt (INR (2 * la + 1)))); [|apply Rinv_neq_0_compat; exact Hs]. rewrite E.
  destruct (Nat.eqb_spec l 0) as [->|Hne].
  - assert (k = 0)%nat by lia. subst k. change (0 =? 0 * 0 + 0)%nat with true. cbn iota. change (0 =? 0)%nat with true. cbn iota. field. exact Hs.
  - destruct (Nat.eqb_spec 0 (l * l + k)); [nia|]. ring.
Qed.

Lemma assembled_trace : forall C N degrees mult irreps A i j n1, cg_orthonormal n1 N C -> cg_scalar n1 C ->
  (degree_at degrees A < n1)%nat -> (0 < N)%nat ->
  rsum (2 * degree_at degrees A + 1) (fun u => assembled C N degrees mult irreps A i u A j u)
  = sqrt (INR (2 * degree_at degrees A + 1)) * irrep irreps 0 0 (column degrees mult 0 A A i j).
Proof.
  intros C N degrees mult irreps A i j n1 HO HS Hn HN. unfold assembled. set (la := degree_at degrees A) in *.
  rewrite rsum_swap. rewrite (rsum_single _ _ 0%nat HN).
  - assert (T : triangle la la 0 = true) by (apply triangle_iff; unfold absdiff; lia). rewrite T. change (2 * 0 + 1)%nat with 1%nat.
    rewrite <- (Rmult_comm (irrep irreps 0 0 _)). transitivity (irrep irreps 0 0 (column degrees mult 0 A A i j)
       * rsum (2 * la + 1) (fun u => C (la * la + u)%nat (la * la + u)%nat (0 * 0 + 0)%nat)).
    + rewrite <- rsum_scal_l. apply rsum_ext. intros u Hu. cbn [rsum]. ring.
    + rewrite (cg_trace n1 N C la 0 0 HO HS Hn HN ltac:(lia) ltac:(lia)). reflexivity.
  - intros l Hl Hne. destruct (triangle la la l) eqn:T; [|apply rsum_const0]. rewrite rsum_swap. apply rsum_zero. intros k Hk.
    rewrite rsum_scal_l. apply triangle_iff in T. rewrite (cg_trace n1 N C la l k HO HS Hn Hl Hk ltac:(lia)).
    destruct (Nat.eqb_spec l 0); [congruence|ring].
Qed.

(** ** Rotation of the irreps *)

Lemma rsum_delta : forall n a f, (a < n)%nat -> rsum n (fun k => (if (a =? k)%nat then 1 else 0) * f k) = f a.
Proof.
  intros n a f Ha. rewrite (rsum_single n _ a Ha).
  - rewrite Nat.eqb_refl. ring.
  - intros i Hi Hne. destruct (Nat.eqb_spec a i); [congruence|ring].
Qed.

Lemma transpose_intertwiner : forall n1 n2 n3 (P Q S : nat -> nat -> R) (C : nat -> nat -> nat -> R),
  (forall a b c, (a < n1)%nat -> (b < n2)%nat -> (c < n3)%nat ->
     rsum n1 (fun k1 => rsum n2 (fun k2 => P a k1 * Q b k2 * C k1 k2 c)) = rsum n3 (fun k3 => C a b k3 * S k3 c)) ->
  (forall a b, (a < n1)%nat -> (b < n1)%nat -> rsum n1 (fun k => P k a * P k b) = if (a =? b)%nat then 1 else 0) ->
  (forall a b, (a < n2)%nat -> (b < n2)%nat -> rsum n2 (fun k => Q k a * Q k b) = if (a =? b)%nat then 1 else 0) ->
  (forall a b, (a < n3)%nat -> (b < n3)%nat -> rsum n3 (fun k => S a k * S b k) = if (a =? b)%nat then 1 else 0) ->
  forall a b c, (a < n1)%nat -> (b < n2)%nat -> (c < n3)%nat ->
  rsum n1 (fun k1 => rsum n2 (fun k2 => P k1 a * Q k2 b * C k1 k2 c)) = rsum n3 (fun k3 => C a b k3 * S c k3).
Proof.
  intros n1 n2 n3 P Q S C H HP HQ HS a b c Ha Hb Hc.
  assert (E : forall k3, (k3 < n3)%nat -> C a b k3 = rsum n1 (fun k1 => rsum n2 (fun k2 => P k1 a * Q k2 b * rsum n3 (fun m => C k1 k2 m * S m k3)))).
  { intros k3 Hk3. rewrite <- (rsum_delta n1 a (fun p => C p b k3) Ha).
    transitivity (rsum n1 (fun p => rsum n1 (fun k1 => P k1 a * P k1 p) * rsum n2 (fun q => rsum n2 (fun k2 => Q k2 b * Q k2 q) * C p q k3))).
    { apply rsum_ext. intros p Hp. rewrite HP by assumption. f_equal. rewrite <- (rsum_delta n2 b (fun q => C p q k3) Hb).
      apply rsum_ext. intros q Hq. rewrite HQ by assumption. reflexivity. }
    transitivity (rsum n1 (fun p => rsum n1 (fun k1 => rsum n2 (fun q => rsum n2 (fun k2 => P k1 a * Q k2 b * (P k1 p * Q k2 q * C p q k3)))))).
    { apply rsum_ext. intros p Hp. rewrite <- rsum_scal_r. apply rsum_ext. intros k1 Hk1. rewrite <- rsum_scal_l. apply rsum_ext. intros q Hq.
      rewrite <- rsum_scal_r, <- rsum_scal_l. apply rsum_ext. intros; ring. }
    rewrite rsum_swap. apply rsum_ext. intros k1 Hk1.
    transitivity (rsum n1 (fun p => rsum n2 (fun k2 => rsum n2 (fun q => P k1 a * Q k2 b * (P k1 p * Q k2 q * C p q k3))))).
    { apply rsum_ext. intros p Hp. apply rsum_swap. }
    rewrite rsum_swap. apply rsum_ext. intros k2 Hk2. rewrite <- (H k1 k2 k3) by assumption. rewrite <- rsum_scal_l. apply rsum_ext. intros p Hp.
    rewrite <- rsum_scal_l. reflexivity. }
  symmetry. transitivity (rsum n3 (fun k3 => rsum n1 (fun k1 => rsum n2 (fun k2 => P k1 a * Q k2 b * rsum n3 (fun m => C k1 k2 m * (S m k3 * S c k3)))))).
  { apply rsum_ext. intros k3 Hk3. rewrite (E k3 Hk3), <- rsum_scal_r. apply rsum_ext. intros k1 Hk1. rewrite <- rsum_scal_r. apply rsum_ext. intros k2 Hk2.
    rewrite Rmult_assoc. f_equal. rewrite <- rsum_scal_r. apply rsum_ext. intros; ring. }
  rewrite rsum_swap. apply rsum_ext. intros k1 Hk1. rewrite rsum_swap. apply rsum_ext. intros k2 Hk2. rewrite rsum_scal_l. f_equal.
  rewrite rsum_swap. rewrite <- (rsum_delta n3 c (fun m => C k1 k2 m) Hc). apply rsum_ext. intros m Hm. rewrite rsum_scal_l, HS by assumption.
  destruct (Nat.eqb_spec m c), (Nat.eqb_spec c m); try congruence; ring.
Qed.

Lemma intertwines_transpose : forall n1 n2 n3 n C D, intertwines n1 n2 n3 C D -> blocks_orthogonal n D -> (n1 <= n)%nat -> (n2 <= n)%nat -> (n3 <= n)%nat ->
  intertwines n1 n2 n3 C (fun a b => D b a).
Proof.
  intros n1 n2 n3 n C D HI HO L1 L2 L3 l1 l2 l3 a b c H1 H2 H3 Ha Hb Hc.
  refine (transpose_intertwiner (2 * l1 + 1) (2 * l2 + 1) (2 * l3 + 1) (fun i j => D (l1 * l1 + i)%nat (l1 * l1 + j)%nat) (fun i j => D (l2 * l2 + i)%nat (l2 * l2 + j)%nat)
    (fun i j => D (l3 * l3 + i)%nat (l3 * l3 + j)%nat) (fun i j k => C (l1 * l1 + i)%nat (l2 * l2 + j)%nat (l3 * l3 + k)%nat) _ _ _ _ a b c Ha Hb Hc).
  - intros i j k Hi Hj Hk. exact (HI l1 l2 l3 i j k H1 H2 H3 Hi Hj Hk).
  - intros i j Hi Hj. apply (HO l1 i j); (assumption || lia).
  - intros i j Hi Hj. apply (HO l2 i j); (assumption || lia).
  - intros i j Hi Hj. apply (HO l3 i j); (assumption || lia).
Qed.

Lemma assembled_transformed : forall C N n1 D degrees mult irreps irreps' A i u B j v,
  intertwines n1 n1 N C (fun a b => D b a) -> irreps_transformed D irreps irreps' -> length irreps = N ->
  (degree_at degrees A < n1)%nat -> (degree_at degrees B < n1)%nat -> (u < 2 * degree_at degrees A + 1)%nat -> (v < 2 * degree_at degrees B + 1)%nat ->
  assembled C N degrees mult irreps' A i u B j v
  = let la := degree_at degrees A in let lb := degree_at degrees B in
    rsum (2 * la + 1) (fun u' => rsum (2 * lb + 1) (fun v' =>
      D (la * la + u')%nat (la * la + u)%nat * D (lb * lb + v')%nat (lb * lb + v)%nat * assembled C N degrees mult irreps A i u' B j v')).
Proof.
  intros C N n1 D degrees mult irreps irreps' A i u B j v HI [HL HT] HN HA HB Hu Hv. cbn zeta.
  unfold assembled. set (la := degree_at degrees A) in *. set (lb := degree_at degrees B) in *.
  assert (Ei : forall l k c, (l < N)%nat -> (k < 2 * l + 1)%nat -> irrep irreps' l k c = rsum (2 * l + 1) (fun k' => D (l * l + k')%nat (l * l + k)%nat * irrep irreps l k' c)).
  { intros l k c Hl Hk. unfold irrep. destruct (nth_error irreps l) as [x|] eqn:Ex; [|apply nth_error_None in Ex; lia].
    destruct (HT l x Ex) as [x' [Ex' [_ [_ Hv']]]]. rewrite Ex', Hv' by exact Hk. apply rsum_ext. intros; ring. }
  transitivity (rsum N (fun l => if triangle la lb l then
     rsum (2 * la + 1) (fun u' => rsum (2 * lb + 1) (fun v' => D (la * la + u')%nat (la * la + u)%nat * D (lb * lb + v')%nat (lb * lb + v)%nat
       * rsum (2 * l + 1) (fun k => irrep irreps l k (column degrees mult l A B i j) * C (la * la + u')%nat (lb * lb + v')%nat (l * l + k)%nat))) else 0)).
  - apply rsum_ext. intros l Hl. destruct (triangle la lb l); [|reflexivity]. set (c := column degrees mult l A B i j).
    transitivity (rsum (2 * l + 1) (fun k' => irrep irreps l k' c * rsum (2 * l + 1) (fun k => C (la * la + u)%nat (lb * lb + v)%nat (l * l + k)%nat * D (l * l + k')%nat (l * l + k)%nat))).
    + transitivity (rsum (2 * l + 1) (fun k => rsum (2 * l + 1) (fun k' => irrep irreps l k' c * (C (la * la + u)%nat (lb * lb + v)%nat (l * l + k)%nat * D (l * l + k')%nat (l * l + k)%nat)))).
      * apply rsum_ext. intros k Hk. rewrite Ei by assumption. rewrite <- rsum_scal_r. apply rsum_ext. intros; ring.
      * rewrite rsum_swap. apply rsum_ext. intros k' Hk'. apply rsum_scal_l.
    + transitivity (rsum (2 * l + 1) (fun k' => rsum (2 * la + 1) (fun u' => rsum (2 * lb + 1) (fun v' =>
         irrep irreps l k' c * (D (la * la + u')%nat (la * la + u)%nat * D (lb * lb + v')%nat (lb * lb + v)%nat * C (la * la + u')%nat (lb * lb + v')%nat (l * l + k')%nat))))).
      * apply rsum_ext. intros k' Hk'. rewrite <- (HI la lb l u v k') by assumption. rewrite <- rsum_scal_l. apply rsum_ext. intros u' Hu'. rewrite <- rsum_scal_l. reflexivity.
      * rewrite rsum_swap. apply rsum_ext. intros u' Hu'. rewrite rsum_swap. apply rsum_ext. intros v' Hv'. rewrite <- rsum_scal_l. apply rsum_ext. intros; ring.
  - symmetry. transitivity (rsum (2 * la + 1) (fun u' => rsum (2 * lb + 1) (fun v' => rsum N (fun l => D (la * la + u')%nat (la * la + u)%nat * D (lb * lb + v')%nat (lb * lb + v)%nat *
       (if triangle la lb l then rsum (2 * l + 1) (fun k => irrep irreps l k (column degrees mult l A B i j) * C (la * la + u')%nat (lb * lb + v')%nat (l * l + k)%nat) else 0))))).
    + apply rsum_ext. intros u' Hu'. apply rsum_ext. intros v' Hv'. rewrite rsum_scal_l. reflexivity.
    + transitivity (rsum (2 * la + 1) (fun u' => rsum N (fun l => rsum (2 * lb + 1) (fun v' => D (la * la + u')%nat (la * la + u)%nat * D (lb * lb + v')%nat (lb * lb + v)%nat *
       (if triangle la lb l then rsum (2 * l + 1) (fun k => irrep irreps l k (column degrees mult l A B i j) * C (la * la + u')%nat (lb * lb + v')%nat (l * l + k)%nat) else 0))))).
      { apply rsum_ext. intros u' Hu'. apply rsum_swap. }
      rewrite rsum_swap. apply rsum_ext. intros l Hl. destruct (triangle la lb l); [reflexivity|].
      apply rsum_zero. intros u' Hu'. apply rsum_zero. intros v' Hv'. ring.
Qed.

Lemma eye_transformed : forall n1 D degrees mult A i u B j v, blocks_orthogonal n1 D ->
  in_group degrees mult A i u -> in_group degrees mult B j v -> (degree_at degrees A < n1)%nat -> (degree_at degrees B < n1)%nat ->
  eye (position degrees mult A i u) (position degrees mult B j v)
  = let la := degree_at degrees A in let lb := degree_at degrees B in
    rsum (2 * la + 1) (fun u' => rsum (2 * lb + 1) (fun v' =>
      D (la * la + u')%nat (la * la + u)%nat * D (lb * lb + v')%nat (lb * lb + v)%nat * eye (position degrees mult A i u') (position degrees mult B j v'))).
Proof.
  intros n1 D degrees mult A i u B j v HO Hu Hv HA HB. cbn zeta.
  assert (E : forall u v, in_group degrees mult A i u -> in_group degrees mult B j v ->
     eye (position degrees mult A i u) (position degrees mult B j v) = if ((A =? B) && (i =? j) && (u =? v))%nat then 1 else 0).
  { intros u0 v0 H1 H2. unfold eye. destruct (Nat.eqb_spec (position degrees mult A i u0) (position degrees mult B j v0)) as [Ep|Ep].
    - destruct (position_inj _ _ _ _ _ _ _ _ H1 H2 Ep) as [-> [-> ->]]. rewrite !Nat.eqb_refl. reflexivity.
    - destruct (Nat.eqb_spec A B) as [->|]; [|reflexivity]. destruct (Nat.eqb_spec i j) as [->|]; [|reflexivity]. destruct (Nat.eqb_spec u0 v0) as [->|]; [|reflexivity]. congruence. }
  assert (G1 : forall u', (u' < 2 * degree_at degrees A + 1)%nat -> in_group degrees mult A i u') by (intros u' H; destruct Hu as [? [? _]]; repeat split; assumption).
  assert (G2 : forall v', (v' < 2 * degree_at degrees B + 1)%nat -> in_group degrees mult B j v') by (intros v' H; destruct Hv as [? [? _]]; repeat split; assumption).
  rewrite (E u v Hu Hv).
  destruct ((A =? B) && (i =? j))%nat eqn:EAB.
  - apply andb_true_iff in EAB. destruct EAB as [EA Ei]. apply Nat.eqb_eq in EA. apply Nat.eqb_eq in Ei. subst B j. cbn [andb].
    rewrite <- (proj2 (HO (degree_at degrees A) u v HA (proj2 (proj2 Hu)) (proj2 (proj2 Hv)))). apply rsum_ext. intros u' Hu'.
    rewrite (rsum_single _ _ u' Hu').
    + rewrite E by auto. rewrite !Nat.eqb_refl. cbn [andb]. ring.
    + intros v' Hv' Hne. rewrite E by auto. cbn [andb]. destruct (Nat.eqb_spec u' v'); [congruence|ring].
  - symmetry. apply rsum_zero. intros u' Hu'. apply rsum_zero. intros v' Hv'. rewrite E by auto. cbn [andb]. ring.
Qed.
