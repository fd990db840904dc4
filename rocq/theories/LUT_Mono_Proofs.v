(** Tables indexed by monomials: numbering of rows and incremental filling (C16, C17). *)
Require Import String List ZArith Bool Lia Permutation.
Require Import Verif.Base Verif.Common_Model Verif.Common_Spec Verif.Common_Proofs Verif.Common_Enum_Proofs
  Verif.LUT_Model Verif.LUT_Spec Verif.LUT_Proofs.
Import ListNotations.

(** Position of an element in a list (its length if absent). *)
Fixpoint pos (p : list nat) (l : list (list nat)) : nat :=
  match l with
  | [] => 0
  | q :: t => if list_eq_dec Nat.eq_dec q p then 0 else S (pos p t)
  end.

Lemma pos_lt : forall p l, In p l -> pos p l < length l.
Proof.
  intros p l; induction l as [|q l IH]; simpl; [tauto|]. intros H.
  destruct (list_eq_dec Nat.eq_dec q p); [lia|]. destruct H as [H|H]; [congruence|]. specialize (IH H). lia.
Qed.

Lemma nth_error_pos : forall p l, In p l -> nth_error l (pos p l) = Some p.
Proof.
  intros p l; induction l as [|q l IH]; simpl; [tauto|]. intros H.
  destruct (list_eq_dec Nat.eq_dec q p) as [->|Hne]; [reflexivity|]. destruct H as [H|H]; [congruence|]. now apply IH.
Qed.

Lemma pos_app_l : forall p a b, In p a -> pos p (a ++ b) = pos p a.
Proof.
  intros p a b; induction a as [|q a IH]; simpl; [tauto|]. intros H.
  destruct (list_eq_dec Nat.eq_dec q p); [reflexivity|]. destruct H as [H|H]; [congruence|]. now rewrite IH.
Qed.

Lemma pos_app_r : forall p a b, ~ In p a -> pos p (a ++ b) = length a + pos p b.
Proof.
  intros p a b; induction a as [|q a IH]; simpl; [reflexivity|]. intros H.
  destruct (list_eq_dec Nat.eq_dec q p); [tauto|]. rewrite IH by tauto. reflexivity.
Qed.

Lemma number_fold : forall ps idx d ls,
  NoDup ps ->
  let '(idx', d', ls') := fold_left mono_step ps (idx, d, ls) in
  idx' = idx + length ps /\
  (forall p, dict_get d' p = if in_dec (list_eq_dec Nat.eq_dec) p ps then Ok (idx + pos p ps) else dict_get d p) /\
  (forall i, ls' i = if (idx <=? i) && (i <? idx + length ps) then nth (i - idx) ps [] else ls i).
Proof.
  induction ps as [|q ps IH]; intros idx d ls Hnd; cbn [fold_left].
  - split; [simpl; lia|]. split; [reflexivity|]. intros i. simpl.
    destruct (Nat.leb_spec idx i); destruct (Nat.ltb_spec i (idx + 0)); simpl; try reflexivity; lia.
  - inversion Hnd as [|? ? Hq Hnd']; subst.
    specialize (IH (idx + 1) ((q, idx) :: d) (fun i => if i =? idx then q else ls i) Hnd').
    change (mono_step (idx, d, ls) q) with (idx + 1, (q, idx) :: d, fun i => if i =? idx then q else ls i).
    destruct (fold_left mono_step ps (idx + 1, (q, idx) :: d, fun i => if i =? idx then q else ls i)) as [[idx' d'] ls'].
    destruct IH as [H1 [H2 H3]]. split; [simpl; lia|]. split.
    + intros p. rewrite H2. simpl pos. cbn [dict_get].
      destruct (in_dec (list_eq_dec Nat.eq_dec) p ps) as [Hp|Hp];
        destruct (in_dec (list_eq_dec Nat.eq_dec) p (q :: ps)) as [Hp'|Hp'].
      * destruct (list_eq_dec Nat.eq_dec q p) as [->|Hne]; [contradiction|]. f_equal. lia.
      * exfalso. apply Hp'. now right.
      * destruct Hp' as [->|Hp']; [|contradiction].
        destruct (list_eq_dec Nat.eq_dec p p); [f_equal; lia|congruence].
      * destruct (list_eq_dec Nat.eq_dec q p) as [->|Hne]; [|reflexivity]. exfalso. apply Hp'. now left.
    + intros i. rewrite H3. simpl length.
      destruct (Nat.leb_spec (idx + 1) i) as [Ha|Ha]; destruct (Nat.ltb_spec i (idx + 1 + length ps)) as [Hb|Hb];
        destruct (Nat.leb_spec idx i) as [Hc|Hc]; destruct (Nat.ltb_spec i (idx + S (length ps))) as [He|He]; simpl; try lia.
      * replace (i - idx) with (S (i - (idx + 1))) by lia. reflexivity.
      * destruct (Nat.eqb_spec i idx); [lia|reflexivity].
      * destruct (Nat.eqb_spec i idx) as [->|]; [|lia]. now rewrite Nat.sub_diag.
      * destruct (Nat.eqb_spec i idx); [lia|reflexivity].
Qed.

Lemma assoc_unique : forall X Y (cs : list (X * Y)) k a b, NoDup (map fst cs) -> In (k, a) cs -> In (k, b) cs -> a = b.
Proof.
  intros X Y cs k a b; induction cs as [|[k0 a0] cs IH]; simpl; [tauto|]. intros Hn Ha Hb.
  inversion Hn as [|? ? Hni Hn']; subst.
  destruct Ha as [Ha|Ha]; destruct Hb as [Hb|Hb].
  - congruence.
  - injection Ha as -> ->. exfalso. apply Hni. apply (in_map fst) in Hb. exact Hb.
  - injection Hb as -> ->. exfalso. apply Hni. apply (in_map fst) in Ha. exact Ha.
  - now apply IH.
Qed.

Section Rows.
Variable powers : nat -> list (list nat).
Definition rowstart (l : nat) : nat := sum_nat l (fun k => length (powers k)).
Definition monos (n : nat) : list (list nat) := flat_map powers (seq 0 n).

Lemma rowstart_mono : forall a b, a <= b -> rowstart a <= rowstart b.
Proof. intros a b H; induction H; [lia|]. unfold rowstart in *. simpl. lia. Qed.

Lemma length_flat_powers : forall n s, length (flat_map powers (seq s n)) + rowstart s = rowstart (s + n).
Proof.
  induction n as [|n IH]; intros s; simpl.
  - f_equal. lia.
  - rewrite app_length. specialize (IH (S s)).
    assert (E : rowstart (S s) = rowstart s + length (powers s)) by reflexivity.
    replace (s + S n) with (S s + n) by lia. lia.
Qed.
End Rows.

Section Mono.
Variable A : Type.
Variable zero : A.
Variable powers : nat -> list (list nat).
Hypothesis powers_nodup : forall l, NoDup (powers l).
Hypothesis powers_sum : forall l p, In p (powers l) -> sum_list p = l.
Local Notation rowstart := (rowstart powers).
Local Notation monos := (monos powers).

Definition row (p : list nat) : nat := rowstart (sum_list p) + pos p (powers (sum_list p)).


Lemma NoDup_flat_powers : forall n s, NoDup (flat_map powers (seq s n)).
Proof.
  induction n as [|n IH]; intros s; simpl; [constructor|].
  apply Verif.Indexed_Pair_Proofs.NoDup_app_intro; [apply powers_nodup|apply IH|].
  intros x Hx Hx'. apply in_flat_map in Hx'. destruct Hx' as [l [Hl Hx']]. apply in_seq in Hl.
  apply powers_sum in Hx. apply powers_sum in Hx'. lia.
Qed.


Lemma pos_flat_powers : forall n s l p, s <= l < s + n -> In p (powers l) ->
  rowstart s + pos p (flat_map powers (seq s n)) = row p.
Proof.
  induction n as [|n IH]; intros s l p Hl Hp; [lia|]. simpl.
  assert (Es := powers_sum l p Hp).
  destruct (Nat.eq_dec l s) as [->|Hne].
  - rewrite pos_app_l by assumption. unfold row. now rewrite Es.
  - rewrite pos_app_r.
    + specialize (IH (S s) l p ltac:(lia) Hp). rewrite <- IH.
      assert (E : rowstart (S s) = rowstart s + length (powers s)) by reflexivity. lia.
    + intros H. apply powers_sum in H. lia.
Qed.

Lemma number_monomials_spec : forall lstart L ls, lstart <= L + 1 ->
  let '(_, d, ls') := number_monomials powers lstart L (rowstart lstart) ls in
  (forall l p, lstart <= l <= L -> In p (powers l) -> dict_get d p = Ok (row p)) /\
  (forall i, i < rowstart (L + 1) -> ls' i = if rowstart lstart <=? i then nth i (monos (L + 1)) [] else ls i).
Proof.
  intros lstart L ls Hl. unfold number_monomials.
  pose proof (number_fold (flat_map powers (seq lstart (L + 1 - lstart))) (rowstart lstart) [] ls
    (NoDup_flat_powers _ _)) as H.
  destruct (fold_left mono_step (flat_map powers (seq lstart (L + 1 - lstart))) (rowstart lstart, [], ls)) as [[idx d] ls'].
  destruct H as [H1 [H2 H3]]. split.
  - intros l p Hlp Hp. rewrite H2. destruct (in_dec _ p _) as [Hin|Hin].
    + f_equal. apply (pos_flat_powers _ _ l); [lia|assumption].
    + exfalso. apply Hin. apply in_flat_map. exists l. split; [apply in_seq; lia|assumption].
  - intros i Hi. rewrite H3.
    pose proof (length_flat_powers powers (L + 1 - lstart) lstart) as Hlen. replace (lstart + (L + 1 - lstart)) with (L + 1) in Hlen by lia.
    destruct (Nat.leb_spec (rowstart lstart) i) as [Hge|Hlt]; simpl; [|reflexivity].
    destruct (Nat.ltb_spec i (rowstart lstart + length (flat_map powers (seq lstart (L + 1 - lstart))))) as [_|Hb]; [|lia].
    unfold LUT_Mono_Proofs.monos. replace (seq 0 (L + 1)) with (seq 0 lstart ++ seq lstart (L + 1 - lstart)).
    + rewrite flat_map_app. rewrite app_nth2.
      * f_equal. pose proof (length_flat_powers powers lstart 0) as H0. simpl in H0. unfold LUT_Mono_Proofs.rowstart at 1 in H0. simpl in H0. lia.
      * pose proof (length_flat_powers powers lstart 0) as H0. simpl in H0. unfold LUT_Mono_Proofs.rowstart at 1 in H0. simpl in H0. lia.
    + rewrite <- seq_app. f_equal. lia.
Qed.

Lemma row_bounds : forall l p, In p (powers l) -> rowstart l <= row p < rowstart (l + 1).
Proof.
  intros l p Hp. unfold row. rewrite (powers_sum l p Hp). pose proof (pos_lt p (powers l) Hp).
  replace (l + 1) with (S l) by lia.
  assert (E : rowstart (S l) = rowstart l + length (powers l)) by reflexivity. lia.
Qed.

Lemma row_inj : forall l l' p p', In p (powers l) -> In p' (powers l') -> row p = row p' -> p = p'.
Proof.
  intros l l' p p' Hp Hp' E.
  pose proof (row_bounds l p Hp) as B. pose proof (row_bounds l' p' Hp') as B'.
  assert (El : l = l').
  { destruct (Nat.lt_trichotomy l l') as [H|[H|H]]; [|assumption|].
    - pose proof (rowstart_mono powers (l + 1) l' ltac:(lia)). lia.
    - pose proof (rowstart_mono powers (l' + 1) l ltac:(lia)). lia. }
  subst l'. unfold row in E. rewrite (powers_sum l p Hp), (powers_sum l p' Hp') in E.
  assert (Ep : pos p (powers l) = pos p' (powers l)) by lia.
  pose proof (nth_error_pos p _ Hp) as N. pose proof (nth_error_pos p' _ Hp') as N'. rewrite Ep in N. congruence.
Qed.

(** ** Columns *)

Variable cols : nat -> list (nat * list (list nat * A)).
Variable colstart : nat -> nat.
Hypothesis colstart_mono : forall a b, a <= b -> colstart a <= colstart b.
Hypothesis cols_bounds : forall l c terms, In (c, terms) (cols l) -> colstart l <= c < colstart (l + 1).
Hypothesis cols_nodup : forall l, NoDup (map fst (cols l)).
Hypothesis terms_ok : forall l c terms p v, In (c, terms) (cols l) -> In (p, v) terms -> In p (powers l).
Hypothesis terms_nodup : forall l c terms, In (c, terms) (cols l) -> NoDup (map fst terms).

Definition entries (l : nat) : list (key2 * A) :=
  flat_map (fun ct => map (fun pv => ((row (fst pv), fst ct), snd pv)) (snd ct)) (cols l).
Definition entries_range (s n : nat) : list (key2 * A) := flat_map entries (seq s n).

Definition cold (L : nat) : key2 -> A := puts A key2 eq2 (entries_range 0 (L + 1)) (zeros A zero).
Definition inside (L : nat) (q : key2) : bool := in2 (rowstart (L + 1)) (colstart (L + 1)) q.

Lemma column_entries_ok : forall d col terms,
  (forall p v, In (p, v) terms -> dict_get d p = Ok (row p)) ->
  column_entries A d col terms = Ok (map (fun pv => ((row (fst pv), col), snd pv)) terms).
Proof.
  intros d col terms; induction terms as [|[p v] terms IH]; intros H; simpl; [reflexivity|].
  rewrite (H p v) by now left. simpl. rewrite IH by (intros p' v' H'; apply (H p' v'); now right). reflexivity.
Qed.

Lemma all_entries_ok : forall d cs,
  (forall c terms p v, In (c, terms) cs -> In (p, v) terms -> dict_get d p = Ok (row p)) ->
  all_entries A d cs = Ok (flat_map (fun ct => map (fun pv => ((row (fst pv), fst ct), snd pv)) (snd ct)) cs).
Proof.
  intros d cs; induction cs as [|[c terms] cs IH]; intros H; simpl; [reflexivity|].
  rewrite column_entries_ok by (intros p v Hp; apply (H c terms p v); [now left|assumption]). simpl.
  rewrite IH by (intros c' t' p v Hc Hp; apply (H c' t' p v); [now right|assumption]). reflexivity.
Qed.

Lemma flat_flat : forall X Y Z (f : X -> list Y) (g : Y -> list Z) l,
  flat_map g (flat_map f l) = flat_map (fun x => flat_map g (f x)) l.
Proof. intros X Y Z f g l; induction l as [|a l IH]; simpl; [reflexivity|]. now rewrite flat_map_app, IH. Qed.

Lemma entries_in : forall l r c v, In ((r, c), v) (entries l) ->
  exists terms p, In (c, terms) (cols l) /\ In (p, v) terms /\ r = row p.
Proof.
  intros l r c v H. unfold entries in H. apply in_flat_map in H. destruct H as [[c' terms] [Hc H]].
  apply in_map_iff in H. destruct H as [[p v'] [E H]]. simpl in E. injection E as <- <- <-. exists terms, p. auto.
Qed.

Lemma entries_inside : forall l L r c v, l <= L -> In ((r, c), v) (entries l) -> inside L (r, c) = true.
Proof.
  intros l L r c v Hl H. destruct (entries_in l r c v H) as [terms [p [Hc [Hp ->]]]].
  unfold inside. apply in2_iff. simpl.
  pose proof (row_bounds l p (terms_ok l c terms p v Hc Hp)). pose proof (cols_bounds l c terms Hc).
  pose proof (rowstart_mono powers (l + 1) (L + 1) ltac:(lia)). pose proof (colstart_mono (l + 1) (L + 1) ltac:(lia)). lia.
Qed.

Lemma entries_outside : forall l L r c v, L < l -> In ((r, c), v) (entries l) -> inside L (r, c) = false.
Proof.
  intros l L r c v Hl H. destruct (entries_in l r c v H) as [terms [p [Hc [Hp ->]]]].
  destruct (inside L (row p, c)) eqn:E; [|reflexivity]. unfold inside in E. apply in2_iff in E. simpl in E.
  pose proof (row_bounds l p (terms_ok l c terms p v Hc Hp)). 
  pose proof (rowstart_mono powers (L + 1) l ltac:(lia)). lia.
Qed.

Lemma entries_range_in : forall s n q v, In (q, v) (entries_range s n) -> exists l, s <= l < s + n /\ In (q, v) (entries l).
Proof.
  intros s n q v H. unfold entries_range in H. apply in_flat_map in H. destruct H as [l [Hl H]].
  apply in_seq in Hl. exists l. auto.
Qed.

Lemma entries_range_app : forall a b, entries_range 0 (a + b) = entries_range 0 a ++ entries_range a b.
Proof. intros a b. unfold entries_range. now rewrite seq_app, flat_map_app. Qed.

(** Restricting the table of a larger degree. *)
Lemma cold_restrict : forall L L' q, L <= L' -> inside L q = true -> cold L' q = cold L q.
Proof.
  intros L L' q HL Hq. unfold cold. replace (L' + 1) with ((L + 1) + (L' - L)) by lia.
  rewrite entries_range_app, puts_app. rewrite (puts_miss A zero key2 eq2 eq2_iff); [reflexivity|].
  intros v H. apply entries_range_in in H. destruct H as [l [Hl H]]. destruct q as [r c].
  rewrite (entries_outside l L r c v) in Hq by (lia || assumption). discriminate.
Qed.

(** Outside its bounds a table is zero. *)
Lemma cold_outside : forall L q, inside L q = false -> cold L q = zero.
Proof.
  intros L q Hq. unfold cold. rewrite (puts_miss A zero key2 eq2 eq2_iff); [reflexivity|].
  intros v H. apply entries_range_in in H. destruct H as [l [Hl H]]. destruct q as [r c].
  rewrite (entries_inside l L r c v) in Hq by (lia || assumption). discriminate.
Qed.

(** Filling in the missing degrees. *)
Lemma extend_cold : forall d L a q, d <= L + 1 ->
  a q = puts A key2 eq2 (entries_range 0 d) (zeros A zero) q ->
  puts A key2 eq2 (entries_range d (L + 1 - d)) a q = cold L q.
Proof.
  intros d L a q Hd Ha. unfold cold. replace (L + 1) with (d + (L + 1 - d)) at 2 by lia.
  rewrite entries_range_app, puts_app. now apply puts_ext.
Qed.

(** Closed form: the entry of a monomial in a column is its coefficient. *)
Lemma cold_entry : forall L l c terms p v, l <= L -> In (c, terms) (cols l) -> In (p, v) terms ->
  cold L (row p, c) = v.
Proof.
  intros L l c terms p v Hl Hc Hp. unfold cold. apply (puts_hit A key2 eq2 eq2_iff).
  - intros v' H. apply entries_range_in in H. destruct H as [l' [Hl' H]].
    destruct (entries_in l' _ _ _ H) as [terms' [p' [Hc' [Hp' E]]]].
    assert (p' = p).
    { symmetry. apply (row_inj l l' p p'); [now apply terms_ok with c terms v|now apply terms_ok with c terms' v'|assumption]. }
    subst p'.
    assert (l' = l).
    { rewrite <- (powers_sum l' p), <- (powers_sum l p); [reflexivity|now apply terms_ok with c terms v|now apply terms_ok with c terms' v']. }
    subst l'.
    assert (terms' = terms).
    { apply (assoc_unique _ _ (cols l) c); auto. }
    subst terms'.
    apply (assoc_unique _ _ terms p); auto. now apply terms_nodup with l c.
  - unfold entries_range. apply in_flat_map. exists l. split; [apply in_seq; lia|].
    unfold entries. apply in_flat_map. exists (c, terms). split; [assumption|].
    apply in_map_iff. exists (p, v). auto.
Qed.

Lemma cold_absent : forall L l c terms l' p, l <= L -> In (c, terms) (cols l) -> In p (powers l') ->
  (forall v, ~ In (p, v) terms) -> cold L (row p, c) = zero.
Proof.
  intros L l c terms l' p Hl Hc Hp Hn. unfold cold. rewrite (puts_miss A zero key2 eq2 eq2_iff); [reflexivity|].
  intros v H. apply entries_range_in in H. destruct H as [k [Hk H]].
  destruct (entries_in k _ _ _ H) as [terms' [p' [Hc' [Hp' E]]]].
  assert (p' = p).
  { symmetry. apply (row_inj l' k p p'); [assumption|now apply terms_ok with c terms' v|assumption]. }
  subst p'.
  assert (k = l).
  { pose proof (cols_bounds _ _ _ Hc). pose proof (cols_bounds _ _ _ Hc').
    destruct (Nat.lt_trichotomy k l) as [G|[G|G]]; [|assumption|].
    - pose proof (colstart_mono (k + 1) l ltac:(lia)). lia.
    - pose proof (colstart_mono (l + 1) k ltac:(lia)). lia. }
  subst k.
  assert (terms' = terms).
  { apply (assoc_unique _ _ (cols l) c); auto. }
  subst terms'. exact (Hn v Hp').
Qed.
End Mono.
