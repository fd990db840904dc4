(** Proofs about the enumeration of index tuples and the compression/expansion of symmetric tensors. *)
Require Import List Arith Lia Permutation Sorting.Sorted Bool ZArith.
Require Import Verif.Base Verif.Common_Model Verif.Common_Proofs Verif.Common_Enum_Proofs Verif.LUT_Model Verif.Tensor_Model.
Import ListNotations.
Open Scope nat_scope.
Local Notation cwr := combinations_with_replacement.

Lemma cwr_cons : forall r a t, cwr (S r) (a :: t) = map (cons a) (cwr r (a :: t)) ++ cwr (S r) t.
Proof. reflexivity. Qed.
Lemma cwr_nil : forall r, cwr (S r) [] = [].
Proof. reflexivity. Qed.

Lemma in_cwr : forall r vals t, StronglySorted lt vals ->
  (In t (cwr r vals) <-> length t = r /\ Forall (fun i => In i vals) t /\ StronglySorted le t).
Proof.
  induction r as [|r IHr]; intros vals t Hs.
  - cbn. split.
    + intros [<-|[]]. repeat split; constructor.
    + intros (H & _). left. now destruct t.
  - induction vals as [|a vals IHv].
    + cbn. split; [tauto|]. intros (H & F & _). destruct t; [discriminate|]. inversion F; subst. tauto.
    + inversion Hs as [|? ? Hs' Ha]; subst. rewrite cwr_cons, in_app_iff, in_map_iff, (IHv Hs'). split.
      * intros [(t' & <- & Ht)|(H & F & S0)].
        -- apply (IHr _ _ Hs) in Ht. destruct Ht as (H & F & S0). split; [cbn; lia|]. split.
           ++ constructor; [now left|exact F].
           ++ constructor; [exact S0|]. rewrite Forall_forall in F, Ha |- *. intros i Hi.
              destruct (F i Hi) as [<-|Hin]; [lia|]. apply Ha in Hin. lia.
        -- split; [exact H|split; [|exact S0]]. eapply Forall_impl; [|exact F]. intros i Hi. now right.
      * intros (H & F & S0). destruct t as [|b t]; [discriminate|]. inversion F as [|? ? Hb F']; subst.
        inversion S0 as [|? ? S0' Hle]; subst.
        destruct Hb as [<-|Hb].
        -- left. exists t. split; [reflexivity|]. apply (IHr _ _ Hs). cbn in H. repeat split; [lia|exact F'|exact S0'].
        -- right. split; [exact H|split; [|exact S0]]. constructor; [exact Hb|].
           rewrite Forall_forall in F', Hle, Ha |- *. intros i Hi. destruct (F' i Hi) as [<-|Hin]; [|exact Hin].
           apply Ha in Hb. apply Hle in Hi. lia.
Qed.

Lemma NoDup_map_cons : forall (a : nat) l, NoDup l -> NoDup (map (cons a) l).
Proof. intros a l H. apply NoDup_map_inj; [|exact H]. intros x y _ _ E. now inversion E. Qed.

Lemma NoDup_app_intro : forall A (l l' : list A), NoDup l -> NoDup l' -> (forall x, In x l -> ~ In x l') -> NoDup (l ++ l').
Proof.
  intros A l l' H H' D. induction l as [|a l IH]; [exact H'|]. inversion H; subst. cbn. constructor.
  - rewrite in_app_iff. intros [X|X]; [contradiction|]. apply (D a); [now left|exact X].
  - apply IH; [assumption|]. intros x Hx. apply D. now right.
Qed.

Lemma NoDup_cwr : forall r vals, StronglySorted lt vals -> NoDup (cwr r vals).
Proof.
  induction r as [|r IHr]; intros vals Hs.
  - cbn. constructor; [intros []|constructor].
  - induction vals as [|a vals IHv]; [constructor|]. inversion Hs as [|? ? Hs' Ha]; subst. rewrite cwr_cons.
    apply NoDup_app_intro.
    + apply NoDup_map_cons, IHr, Hs.
    + exact (IHv Hs').
    + intros t Ht. apply in_map_iff in Ht. destruct Ht as (t' & <- & _). rewrite (in_cwr _ _ _ Hs'). intros (_ & F & _).
      inversion F as [|? ? Hin _]; subst. rewrite Forall_forall in Ha. apply Ha in Hin. lia.
Qed.

Lemma axes_sorted : StronglySorted lt axes.
Proof. unfold axes. repeat (constructor; [|repeat constructor; lia]). constructor. Qed.

Lemma cwr_length1 : forall r c, length (cwr r [c]) = 1.
Proof. induction r; intros c; [reflexivity|]. rewrite cwr_cons, app_length, map_length, IHr. reflexivity. Qed.
Lemma cwr_length2 : forall r b c, length (cwr r [b; c]) = r + 1.
Proof.
  induction r; intros b c; [reflexivity|]. rewrite cwr_cons, app_length, map_length, IHr, cwr_length1. lia.
Qed.
Lemma cwr_length3 : forall r a b c, 2 * length (cwr r [a; b; c]) = (r + 1) * (r + 2).
Proof.
  induction r; intros a b c; [reflexivity|]. rewrite cwr_cons, app_length, map_length, cwr_length2.
  specialize (IHr a b c). lia.
Qed.
Lemma cwr_length : forall l, length (cwr l axes) = number_of_cartesian_monomials_of_degree l.
Proof.
  intros l. unfold number_of_cartesian_monomials_of_degree. apply (Nat.div_unique _ 2 _ 0); [lia|].
  pose proof (cwr_length3 l 0 1 2). unfold axes. lia.
Qed.

(** * Products *)
Definition index_ok (l : nat) (t : list nat) : Prop := length t = l /\ Forall (fun i => i < 3) t.

Lemma in_axes : forall i, In i axes <-> i < 3.
Proof. intros i. unfold axes. cbn. lia. Qed.

Lemma in_cwr_axes : forall l t, In t (cwr l axes) <-> index_ok l t /\ StronglySorted le t.
Proof.
  intros l t. rewrite in_cwr by exact axes_sorted. unfold index_ok.
  assert (E : Forall (fun i => In i axes) t <-> Forall (fun i => i < 3) t).
  { split; apply Forall_impl; intros i; apply in_axes. }
  rewrite E. tauto.
Qed.

Lemma product_S : forall l, product axes (S l) = map (cons 0) (product axes l) ++ map (cons 1) (product axes l) ++ map (cons 2) (product axes l).
Proof. intros l. cbn [product]. unfold axes at 2. cbn [flat_map]. now rewrite app_nil_r. Qed.

Lemma in_product : forall l t, In t (product axes l) <-> index_ok l t.
Proof.
  unfold index_ok. induction l as [|l IH]; intros t.
  - cbn. split; [intros [<-|[]]; now split|]. intros [H _]. left. now destruct t.
  - rewrite product_S, !in_app_iff, !in_map_iff. split.
    + intros [(t' & <- & H)|[(t' & <- & H)|(t' & <- & H)]]; apply IH in H; destruct H as [H F]; cbn; (split; [lia|constructor; [lia|exact F]]).
    + intros [H F]. destruct t as [|b t]; [discriminate|]. inversion F as [|? ? Hb F']; subst. cbn in H.
      assert (In t (product axes l)) by (apply IH; split; [lia|exact F']).
      destruct b as [|[|[|b]]]; [left|right; left|right; right|lia]; exists t; auto.
Qed.

Lemma product_length : forall l, length (product axes l) = 3 ^ l.
Proof. induction l as [|l IH]; [reflexivity|]. rewrite product_S, !app_length, !map_length, IH. cbn [Nat.pow]. lia. Qed.

Lemma NoDup_product : forall l, NoDup (product axes l).
Proof.
  induction l as [|l IH]; [cbn; constructor; [intros []|constructor]|]. rewrite product_S.
  apply NoDup_app_intro; [now apply NoDup_map_cons| |].
  - apply NoDup_app_intro; try now apply NoDup_map_cons.
    intros x H1 H2. apply in_map_iff in H1, H2. destruct H1 as (? & <- & _), H2 as (? & E & _). discriminate.
  - intros x H1 H2. apply in_app_iff in H2. rewrite !in_map_iff in H2. apply in_map_iff in H1.
    destruct H1 as (? & <- & _), H2 as [(? & E & _)|(? & E & _)]; discriminate.
Qed.

Lemma ravel_acc : forall t a, fold_left (fun a i => 3 * a + i) t a = a * 3 ^ length t + ravel t.
Proof.
  induction t as [|i t IH]; intros a; unfold ravel; cbn [fold_left length Nat.pow]; [lia|].
  rewrite (IH (3 * a + i)), (IH (3 * 0 + i)). lia.
Qed.
Lemma ravel_cons : forall i t, ravel (i :: t) = i * 3 ^ length t + ravel t.
Proof. intros i t. unfold ravel at 1. cbn [fold_left]. rewrite ravel_acc. lia. Qed.

Lemma ravel_lt : forall l t, index_ok l t -> ravel t < 3 ^ l.
Proof.
  unfold index_ok. induction l as [|l IH]; intros t [H F].
  - destruct t; [cbn; lia|discriminate].
  - destruct t as [|i t]; [discriminate|]. inversion F; subst. cbn in H. rewrite ravel_cons.
    assert (ravel t < 3 ^ l) by (apply IH; split; [lia|assumption]).
    replace (length t) with l by lia. cbn [Nat.pow]. nia.
Qed.

Lemma product_ravel : forall l t, index_ok l t -> nth (ravel t) (product axes l) [] = t.
Proof.
  unfold index_ok. induction l as [|l IH]; intros t [H F].
  - destruct t; [reflexivity|discriminate].
  - destruct t as [|i t]; [discriminate|]. inversion F as [|? ? Hi F']; subst. cbn in H.
    assert (L : length t = l) by lia. assert (Hl : ravel t < 3 ^ l) by (apply ravel_lt; now split).
    assert (IHt : nth (ravel t) (product axes l) [] = t) by (apply IH; now split).
    rewrite ravel_cons, L, product_S. pose proof (product_length l) as PL.
    assert (M : forall b, nth (ravel t) (map (cons b) (product axes l)) [] = b :: t).
    { intros b. rewrite nth_indep with (d' := b :: []) by (rewrite map_length; lia). rewrite map_nth. now rewrite IHt. }
    destruct i as [|[|[|i]]]; [| | |lia].
    + rewrite app_nth1 by (rewrite map_length; lia). apply M.
    + rewrite app_nth2 by (rewrite map_length; lia). rewrite map_length, PL.
      replace (1 * 3 ^ l + ravel t - 3 ^ l) with (ravel t) by lia.
      rewrite app_nth1 by (rewrite map_length; lia). apply M.
    + rewrite app_nth2 by (rewrite map_length; lia). rewrite map_length, PL.
      rewrite app_nth2 by (rewrite map_length; lia). rewrite map_length, PL.
      replace (2 * 3 ^ l + ravel t - 3 ^ l - 3 ^ l) with (ravel t) by lia. apply M.
Qed.

Lemma position_Some : forall keys key i, position key keys = Some i -> i < length keys /\ nth i keys [] = key.
Proof.
  induction keys as [|k keys IH]; intros key i H; cbn in H; [discriminate|].
  destruct (list_eq_dec Nat.eq_dec k key) as [<-|Hn].
  - injection H as <-. cbn. split; [lia|reflexivity].
  - destruct (position key keys) as [j|] eqn:E; [|discriminate]. injection H as <-. apply IH in E. cbn. split; [lia|apply E].
Qed.
Lemma position_in : forall keys key, In key keys -> exists i, position key keys = Some i.
Proof.
  induction keys as [|k keys IH]; intros key H; [destruct H|]. cbn.
  destruct (list_eq_dec Nat.eq_dec k key) as [<-|Hn]; [eauto|]. destruct H as [->|H]; [congruence|].
  destruct (IH _ H) as [i ->]. cbn. eauto.
Qed.
Lemma NoDup_nth_eq : forall (l : list (list nat)) i j, NoDup l -> i < length l -> j < length l -> nth i l [] = nth j l [] -> i = j.
Proof. intros l i j H Hi Hj E. apply (proj1 (NoDup_nth l []) H); assumption. Qed.

Lemma position_nth : forall keys i, NoDup keys -> i < length keys -> position (nth i keys []) keys = Some i.
Proof.
  intros keys i H Hi. destruct (position_in keys (nth i keys [])) as [j Ej]; [now apply nth_In|].
  rewrite Ej. apply position_Some in Ej. f_equal. apply (NoDup_nth_eq keys); tauto.
Qed.

Lemma position_product : forall l t, index_ok l t -> position t (product axes l) = Some (ravel t).
Proof.
  intros l t H. rewrite <- (product_ravel l t H) at 1. apply position_nth; [apply NoDup_product|].
  rewrite product_length. now apply ravel_lt.
Qed.

Lemma ravel_inj : forall l t t', index_ok l t -> index_ok l t' -> ravel t = ravel t' -> t = t'.
Proof. intros l t t' H H' E. rewrite <- (product_ravel l t H), <- (product_ravel l t' H'). now rewrite E. Qed.

(** * Expansion *)
Definition apply_writes (ws : list (nat * nat)) (a : list nat) : list nat :=
  fold_left (fun a w => set_entry (fst w) (snd w) a) ws a.

Lemma set_entry_length : forall i x l, length (set_entry i x l) = length l.
Proof. induction i; intros x [|y l]; cbn; auto. Qed.
Lemma set_entry_nth : forall i x l j, nth j (set_entry i x l) 0 = if (j =? i) && (i <? length l) then x else nth j l 0.
Proof.
  induction i as [|i IH]; intros x [|y l] j; cbn [set_entry length].
  - rewrite andb_false_r. reflexivity.
  - destruct j; reflexivity.
  - rewrite andb_false_r. reflexivity.
  - destruct j as [|j]; [reflexivity|]. cbn [nth]. rewrite IH. reflexivity.
Qed.
Lemma apply_writes_length : forall ws a, length (apply_writes ws a) = length a.
Proof. induction ws as [|w ws IH]; intros a; [reflexivity|]. cbn. unfold apply_writes in IH. rewrite IH. apply set_entry_length. Qed.
Lemma apply_writes_nth : forall ws a q v, q < length a -> (forall w, In w ws -> fst w = q -> snd w = v) ->
  (In (q, v) ws \/ nth q a 0 = v) -> nth q (apply_writes ws a) 0 = v.
Proof.
  induction ws as [|w ws IH]; intros a q v Hq Hu Hor; [destruct Hor as [[]|H]; exact H|].
  cbn. apply IH.
  - rewrite set_entry_length. exact Hq.
  - intros w' Hw'. apply Hu. now right.
  - destruct (Nat.eq_dec (fst w) q) as [E|NE].
    + right. rewrite set_entry_nth, E, Nat.eqb_refl. destruct (Nat.ltb_spec q (length a)); [|lia]. cbn.
      apply Hu; [now left|exact E].
    + destruct Hor as [[->|H]|H]; [now destruct NE|now left|]. right. rewrite set_entry_nth.
      destruct (Nat.eqb_spec q (fst w)); [congruence|exact H].
Qed.

Lemma in_distinct_permutations : forall c p, In p (distinct_permutations c) <-> Permutation p c.
Proof. intros c p. unfold distinct_permutations. now apply in_distinct_permutations_fuel. Qed.

Lemma index_ok_perm : forall l p c, Permutation p c -> index_ok l c -> index_ok l p.
Proof.
  intros l p c H [Hl F]. split; [now rewrite (Permutation_length H)|]. rewrite Forall_forall in *. intros i Hi.
  apply F. eapply Permutation_in; eassumption.
Qed.

Definition writes (combos : list (list nat)) (s : nat) : list (nat * nat) :=
  flat_map (fun ic => map (fun p => (ravel p, fst ic)) (distinct_permutations (snd ic))) (combine (seq s (length combos)) combos).

Lemma inner_writes : forall l i ps a, (forall p, In p ps -> index_ok l p) ->
  rfold (fun indices permutation => match position permutation (product axes l) with
          | Some p => Ok (set_entry p i indices) | None => Err KeyError end) ps a
  = Ok (apply_writes (map (fun p => (ravel p, i)) ps) a).
Proof.
  intros l i ps. induction ps as [|p ps IH]; intros a H; [reflexivity|]. cbn [rfold map].
  rewrite (position_product l p) by (apply H; now left). cbn [bind]. apply IH. intros p' Hp'. apply H. now right.
Qed.

Lemma apply_writes_app : forall u v a, apply_writes (u ++ v) a = apply_writes v (apply_writes u a).
Proof. intros u v a. unfold apply_writes. apply fold_left_app. Qed.

Lemma outer_writes : forall l combos s a, (forall c, In c combos -> index_ok l c) ->
  rfold (fun indices ic => rfold (fun indices permutation => match position permutation (product axes l) with
          | Some p => Ok (set_entry p (fst ic) indices) | None => Err KeyError end) (distinct_permutations (snd ic)) indices)
    (combine (seq s (length combos)) combos) a = Ok (apply_writes (writes combos s) a).
Proof.
  intros l combos. induction combos as [|c combos IH]; intros s a H; [reflexivity|].
  unfold writes. cbn [length seq combine rfold flat_map fst snd].
  rewrite inner_writes.
  - cbn [bind]. rewrite apply_writes_app. apply IH. intros c' Hc'. apply H. now right.
  - intros p Hp. apply in_distinct_permutations in Hp. eapply index_ok_perm; [exact Hp|]. apply H. now left.
Qed.

Lemma in_enumerate : forall (combos : list (list nat)) s i c,
  In (i, c) (combine (seq s (length combos)) combos) <-> exists k, i = s + k /\ k < length combos /\ nth k combos [] = c.
Proof.
  induction combos as [|c0 combos IH]; intros s i c; cbn [length seq combine].
  - split; [intros []|]. intros (k & _ & H & _). lia.
  - cbn [In]. rewrite IH. split.
    + intros [E|(k & -> & H & E)].
      * injection E as <- <-. exists 0. cbn. repeat split; lia.
      * exists (S k). cbn. repeat split; [lia|lia|exact E].
    + intros (k & -> & H & E). destruct k as [|k].
      * left. cbn in E. rewrite E. f_equal. lia.
      * right. exists k. cbn in E. repeat split; [lia|lia|exact E].
Qed.

Lemma in_writes : forall combos q v, In (q, v) (writes combos 0) <->
  exists p, v < length combos /\ Permutation p (nth v combos []) /\ q = ravel p.
Proof.
  intros combos q v. unfold writes. rewrite in_flat_map. split.
  - intros ((i & c) & H1 & H2). apply in_enumerate in H1. destruct H1 as (k & -> & Hk & <-).
    apply in_map_iff in H2. destruct H2 as (p & E & Hp). cbn in E, Hp. injection E as <- <-.
    exists p. apply in_distinct_permutations in Hp. auto.
  - intros (p & Hv & Hp & ->). exists (v, nth v combos []). split.
    + apply in_enumerate. exists v. auto.
    + apply in_map_iff. exists p. cbn. split; [reflexivity|]. now apply in_distinct_permutations.
Qed.

Lemma cwr_nth_ok : forall l i, i < length (cwr l axes) -> index_ok l (nth i (cwr l axes) []) /\ StronglySorted le (nth i (cwr l axes) []).
Proof. intros l i H. apply in_cwr_axes. now apply nth_In. Qed.

Lemma cwr_perm_unique : forall l i j p, i < length (cwr l axes) -> j < length (cwr l axes) ->
  Permutation p (nth i (cwr l axes) []) -> Permutation p (nth j (cwr l axes) []) -> i = j.
Proof.
  intros l i j p Hi Hj Pi Pj. apply (NoDup_nth_eq (cwr l axes)); try assumption; [apply NoDup_cwr, axes_sorted|].
  apply sorted_perm_eq; [apply cwr_nth_ok, Hi|apply cwr_nth_ok, Hj|].
  eapply Permutation_trans; [apply Permutation_sym, Pi|exact Pj].
Qed.

Lemma expansion_exists : forall empty d, (0 <= d)%Z ->
  exists e, tensor_expansion_indices empty d = Ok e /\ length e = 3 ^ Z.to_nat d /\
    forall t, index_ok (Z.to_nat d) t ->
      nth (ravel t) e 0 < length (cwr (Z.to_nat d) axes) /\
      Permutation t (nth (nth (ravel t) e 0) (cwr (Z.to_nat d) axes) []).
Proof.
  intros empty d Hd. unfold tensor_expansion_indices, check_degree.
  destruct (Z.ltb_spec d 0); [lia|]. cbn [bind]. set (l := Z.to_nat d).
  rewrite outer_writes by (intros c Hc; now apply in_cwr_axes in Hc).
  eexists. split; [reflexivity|]. split.
  - rewrite apply_writes_length, map_length, seq_length. apply product_length.
  - intros t Ht. set (c := isort t).
    assert (Hc : In c (cwr l axes)).
    { apply in_cwr_axes. split; [|apply isort_sorted]. eapply index_ok_perm; [apply isort_perm|exact Ht]. }
    destruct (In_nth _ _ [] Hc) as (i & Hi & Ei).
    assert (Pi : Permutation t (nth i (cwr l axes) [])) by (rewrite Ei; apply Permutation_sym, isort_perm).
    assert (E : nth (ravel t) (apply_writes (writes (cwr l axes) 0) (map empty (seq 0 (length (product axes l))))) 0 = i).
    { apply apply_writes_nth.
      - rewrite map_length, seq_length, product_length. now apply ravel_lt.
      - intros (q & v) Hw Eq. cbn in Eq |- *. subst q. apply in_writes in Hw. destruct Hw as (p & Hv & Pv & Er).
        assert (Okp : index_ok l p) by (eapply index_ok_perm; [exact Pv|apply cwr_nth_ok, Hv]).
        assert (t = p) by (eapply ravel_inj; eassumption). subst p.
        eapply cwr_perm_unique; eassumption.
      - left. apply in_writes. exists t. auto. }
    rewrite E. split; assumption.
Qed.

Lemma map_nth_seq : forall (l : list nat), map (fun k => nth k l 0) (seq 0 (length l)) = l.
Proof.
  induction l as [|a l IH]; [reflexivity|]. cbn [length seq map nth]. f_equal. rewrite <- seq_shift, map_map. exact IH.
Qed.

(** Index tuples of the compressed tensor. *)
Lemma compression_exists : forall d, (0 < d)%Z ->
  exists c, tensor_compression_indices d = Ok c /\ length c = Z.to_nat d /\
    (forall a, In a c -> length a = number_of_cartesian_monomials_of_degree (Z.to_nat d)) /\
    forall i, i < number_of_cartesian_monomials_of_degree (Z.to_nat d) -> map (fun a => nth i a 0) c = nth i (cwr (Z.to_nat d) axes) [].
Proof.
  intros d Hd. unfold tensor_compression_indices, check_degree. destruct (Z.ltb_spec d 0); [lia|]. cbn [bind].
  set (l := Z.to_nat d). destruct (Nat.eqb_spec l 0); [unfold l in *; lia|]. eexists. split; [reflexivity|].
  split; [now rewrite map_length, seq_length|]. split.
  - intros a Ha. apply in_map_iff in Ha. destruct Ha as (k & <- & _). rewrite map_length. apply cwr_length.
  - intros i Hi. rewrite map_map. rewrite <- cwr_length in Hi.
    destruct (cwr_nth_ok l i Hi) as [[HL _] _].
    transitivity (map (fun k => nth k (nth i (cwr l axes) []) 0) (seq 0 l)).
    + apply map_ext. intros k. rewrite (nth_indep _ 0 (nth k [] 0)) by now rewrite map_length.
      apply (map_nth (fun c => nth k c 0)).
    + pose proof (map_nth_seq (nth i (cwr l axes) [])) as M. rewrite HL in M. exact M.
Qed.
