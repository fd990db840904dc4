(** Proofs about the check for traceless symmetric tensors. *)
Require Import List Reals ZArith Bool Arith Lra Lia Permutation FinFun.
Require Import Verif.Base Verif.RSum Verif.Common_Model Verif.Common_Spec Verif.Symbolic_Model Verif.Tensor_Model Verif.Tensor_Spec.
Import ListNotations.
Open Scope R_scope.
Open Scope list_scope.

Lemma in_select : forall A (l : list A) x r, In (x, r) (select l) -> Permutation (x :: r) l.
Proof.
  induction l as [|a l IH]; intros x r H; [destruct H|]. cbn in H. destruct H as [E|H]; [injection E as <- <-; reflexivity|].
  apply in_map_iff in H as ([y r'] & E & H). cbn in E. injection E as <- <-. rewrite perm_swap. apply perm_skip, IH, H.
Qed.
Lemma select_in : forall A (l : list A) x, In x l -> exists r, In (x, r) (select l).
Proof.
  induction l as [|a l IH]; intros x H; [destruct H|]. destruct H as [->|H]; [exists l; now left|]. destruct (IH x H) as [r Hr].
  exists (a :: r). right. apply in_map_iff. exists (x, r). auto.
Qed.
Lemma in_permutations_n : forall A n (l p : list A), length l = n -> (In p (permutations_of_length n l) <-> Permutation p l).
Proof.
  induction n as [|n IH]; intros l p Hl; cbn [permutations_of_length].
  - destruct l; [|discriminate]. split; [intros [<-|[]]; constructor|]. intros P. left. symmetry. now apply Permutation_nil, Permutation_sym.
  - rewrite in_flat_map. split.
    + intros ([x r] & H & Hp). apply in_select in H. apply in_map_iff in Hp as (q & <- & Hq). cbn in *.
      apply IH in Hq; [|apply Permutation_length in H; cbn in H; lia]. rewrite <- H. now apply perm_skip.
    + intros P. destruct p as [|x q]; [apply Permutation_nil in P; subst; discriminate|].
      assert (Hx : In x l) by (rewrite <- P; now left). destruct (select_in _ _ _ Hx) as [r Hr]. exists (x, r). split; [exact Hr|].
      cbn. apply in_map. apply in_select in Hr. apply IH; [apply Permutation_length in Hr; cbn in Hr; lia|].
      apply (Permutation_cons_inv (a := x)). now rewrite P.
Qed.
Lemma in_permutations : forall A (l p : list A), In p (permutations l) <-> Permutation p l.
Proof. intros. now apply in_permutations_n. Qed.

Lemma in_all_indices : forall s q, In q (all_indices s) <-> Forall2 lt q s.
Proof.
  induction s as [|d s IH]; intros q; cbn [all_indices].
  - split; [intros [<-|[]]; constructor|]. intros H. inversion H. now left.
  - rewrite in_flat_map. split.
    + intros (i & Hi & H). apply in_seq in Hi. apply in_map_iff in H as (q' & <- & H). constructor; [lia|now apply IH].
    + intros H. inversion H as [|i ? q' ? Hi Hq]; subst. exists i. split; [apply in_seq; lia|]. now apply in_map, IH.
Qed.

Lemma allclose_ok : forall rtol atol x y, allclose rtol atol x y = true <->
  forall q, Forall2 lt q (shape x) -> Rabs (get x q - get y q) <= atol + rtol * Rabs (get y q).
Proof.
  intros rtol atol x y. unfold allclose. rewrite forallb_forall. split; intros H q Hq.
  - apply in_all_indices, H in Hq. destruct (Rle_dec _ _); [assumption|discriminate].
  - apply in_all_indices, H in Hq. destruct (Rle_dec _ _); [reflexivity|contradiction].
Qed.

(** * Transposition *)
Lemma index_of_nth : forall l i, NoDup l -> (i < length l)%nat -> index_of (nth i l 0%nat) l = i.
Proof.
  induction l as [|a l IH]; intros i ND Hi; [cbn in Hi; lia|]. inversion ND as [|? ? Ha ND']; subst. cbn [index_of]. destruct i as [|i]; cbn [nth].
  - now rewrite Nat.eqb_refl.
  - cbn in Hi. destruct (Nat.eqb_spec a (nth i l 0%nat)) as [E|_]; [exfalso; apply Ha; rewrite E; apply nth_In; lia|]. f_equal. apply IH; [assumption|lia].
Qed.
Lemma map_index_of : forall p t, NoDup p -> length t = length p -> map (fun j => nth (index_of j p) t 0%nat) p = t.
Proof.
  intros p t ND L. apply nth_ext with (d := 0%nat) (d' := 0%nat); [now rewrite map_length|]. rewrite map_length. intros i Hi.
  rewrite (nth_indep _ _ (nth (index_of 0%nat p) t 0%nat)) by (now rewrite map_length).
  rewrite (map_nth (fun j => nth (index_of j p) t 0%nat) p 0%nat). now rewrite index_of_nth.
Qed.

(** What transposition does to the last dimensions. *)
Definition moved (B l : nat) (p t : list nat) : list nat := map (fun j => nth (index_of j p) t 0%nat) (seq B l).
Lemma moved_perm : forall B l p t, Permutation p (seq B l) -> length t = l -> Permutation (moved B l p t) t.
Proof.
  intros B l p t P L. unfold moved. assert (ND : NoDup p) by (apply (Permutation_NoDup (Permutation_sym P)), seq_NoDup).
  transitivity (map (fun j => nth (index_of j p) t 0%nat) p); [now apply Permutation_map, Permutation_sym|].
  rewrite (map_index_of p t ND) by (rewrite (Permutation_length P), seq_length; exact L). reflexivity.
Qed.
Lemma index_of_app : forall j l1 l2, ~ In j l1 -> index_of j (l1 ++ l2) = (length l1 + index_of j l2)%nat.
Proof.
  induction l1 as [|a l1 IH]; intros l2 H; [reflexivity|]. cbn. destruct (Nat.eqb_spec a j) as [E|_]; [exfalso; apply H; now left|]. rewrite IH; [lia|intros Q; apply H; now right].
Qed.
Lemma index_of_app_in : forall j l1 l2, In j l1 -> index_of j (l1 ++ l2) = index_of j l1.
Proof.
  induction l1 as [|a l1 IH]; intros l2 H; [destruct H|]. cbn. destruct (Nat.eqb_spec a j) as [E|NE]; [reflexivity|]. rewrite IH; [reflexivity|]. destruct H; [contradiction|assumption].
Qed.
Lemma index_of_lt : forall j l, In j l -> (index_of j l < length l)%nat.
Proof. induction l as [|a l IH]; intros H; [destruct H|]. cbn. destruct (Nat.eqb_spec a j); [lia|]. destruct H; [contradiction|]. specialize (IH H). lia. Qed.

Lemma transposed_get : forall x batch l p b t, shape x = batch ++ repeat 3%nat l -> Permutation p (seq (length batch) l) ->
  length b = length batch -> length t = l ->
  get (transpose_array x (seq 0 (length batch) ++ p)) (b ++ t) = get x (b ++ moved (length batch) l p t).
Proof.
  intros x batch l p b t Hx P Lb Lt. cbn [transpose_array get]. f_equal. rewrite Hx, app_length, repeat_length, seq_app, map_app. cbn [Nat.add]. f_equal.
  - transitivity (map (fun j => nth (index_of j (seq 0 (length batch))) b 0%nat) (seq 0 (length batch))); [|apply map_index_of; [apply seq_NoDup|now rewrite seq_length]].
    apply map_ext_in. intros j Hj.
    rewrite index_of_app_in by exact Hj. apply app_nth1. apply index_of_lt in Hj. rewrite seq_length in Hj. lia.
  - unfold moved. apply map_ext_in. intros j Hj. rewrite index_of_app by (intros Q; apply in_seq in Hj; apply in_seq in Q; lia).
    rewrite seq_length, app_nth2 by lia. f_equal. lia.
Qed.

(** Every rearrangement of an index is reached. *)
Lemma moved_surjective : forall B l t t', length t = l -> Permutation t t' ->
  exists p, Permutation p (seq B l) /\ moved B l p t = t'.
Proof.
  intros B l t t' L P. pose proof (Permutation_length P) as L'. apply Permutation_sym, (Permutation_nth _ _ 0%nat) in P. cbn zeta in P.
  destruct P as (_ & f & F1 & F2 & F3). rewrite <- L', L in *. set (p := map (fun i => B + f i)%nat (seq 0 l)).
  assert (PP : Permutation p (seq B l)).
  { apply NoDup_Permutation_bis.
    - unfold p. clear -F1 F2.
      assert (H : forall s, (forall i, In i s -> (i < l)%nat) -> NoDup s -> NoDup (map (fun i => B + f i)%nat s)).
      { induction s as [|a s IH]; intros Hs ND; cbn; [constructor|]. inversion ND; subst. constructor; [|apply IH; auto; intros; apply Hs; now right].
        intros Q. apply in_map_iff in Q as (i & E & Hi). assert (f i = f a) by lia. apply F2 in H; [subst; contradiction| |]; apply Hs; [now right|now left]. }
      apply H; [intros i Hi; apply in_seq in Hi; lia|apply seq_NoDup].
    - unfold p. rewrite map_length, !seq_length. lia.
    - intros j Hj. apply in_map_iff in Hj as (i & <- & Hi). apply in_seq in Hi. apply in_seq. specialize (F1 i). lia. }
  exists p. split; [exact PP|]. assert (ND : NoDup p) by (apply (Permutation_NoDup (Permutation_sym PP)), seq_NoDup).
  apply nth_ext with (d := 0%nat) (d' := 0%nat); [unfold moved; rewrite map_length, seq_length; lia|]. unfold moved. rewrite map_length, seq_length. intros j Hj.
  rewrite (nth_indep _ _ (nth (index_of 0%nat p) t 0%nat)) by (now rewrite map_length, seq_length).
  rewrite (map_nth (fun j => nth (index_of j p) t 0%nat) (seq B l) 0%nat), seq_nth by exact Hj.
  assert (Q : In (B + j)%nat p) by (rewrite PP; apply in_seq; lia). unfold p in Q. apply in_map_iff in Q as (i & E & Hi). apply in_seq in Hi.
  assert (Ei : f i = j) by lia. rewrite <- Ei.
  assert (N : nth i p 0%nat = (B + f i)%nat).
  { unfold p. rewrite (nth_indep _ _ (B + f 0)%nat) by (rewrite map_length, seq_length; lia). rewrite (map_nth (fun i => B + f i)%nat (seq 0 l) 0%nat), seq_nth by lia. reflexivity. }
  rewrite <- N, index_of_nth by (try exact ND; unfold p; rewrite map_length, seq_length; lia). apply F3. lia.
Qed.

Lemma Forall2_lt_perm : forall l t t', Permutation t t' -> Forall2 lt t (repeat 3%nat l) -> Forall2 lt t' (repeat 3%nat l).
Proof.
  intros l t t' P H. assert (H' : length t = l /\ Forall (fun i => (i < 3)%nat) t).
  { clear P. revert t H. induction l; intros t H; inversion H; subst; [split; [reflexivity|constructor]|]. destruct (IHl _ H4) as [L F]. split; [cbn; now f_equal|now constructor]. }
  destruct H' as [L F]. rewrite (Permutation_length P) in L. apply (Permutation_Forall P) in F. clear -L F. revert l L. induction F as [|i t0 Hi F IH]; intros l L; cbn in L; subst; cbn; constructor; auto.
Qed.
Lemma index_shape : forall l t, Forall2 lt t (repeat 3%nat l) <-> tensor_index l t.
Proof.
  intros l t. unfold tensor_index. split.
  - revert t. induction l; intros t H; inversion H; subst; [split; [reflexivity|constructor]|]. destruct (IHl _ H4) as [L F]. split; [cbn; now f_equal|now constructor].
  - intros [L F]. revert l L. induction F as [|i t0 Hi F IH]; intros l L; cbn in L; subst; cbn; constructor; auto.
Qed.

(** * The check *)
Definition passes (l : nat) (rtol atol : R) (T : list nat -> R) : Prop :=
  (forall t t', tensor_index l t -> Permutation t t' -> Rabs (T t - T t') <= atol + rtol * Rabs (T t')) /\
  (forall t, length t = (l - 2)%nat -> Forall (fun i => (i < 3)%nat) t -> Rabs (T (t ++ [0; 0]%nat) + T (t ++ [1; 1]%nat) + T (t ++ [2; 2]%nat)) <= atol).

Lemma check_shape_ok : forall x d batch, (0 < d)%Z -> shape x = batch ++ repeat 3%nat (Z.to_nat d) -> check_tensor_shape x d = Ok tt.
Proof.
  intros x d batch Hd Hx. unfold check_tensor_shape, check_degree. destruct (Z.ltb_spec d 0); [lia|]. cbn [bind]. rewrite Hx, app_length, repeat_length.
  destruct (Nat.eqb_spec (length batch + Z.to_nat d) 0); [lia|]. destruct (Nat.eqb_spec (Z.to_nat d) 0); [lia|].
  rewrite skipn_app. replace (length batch + Z.to_nat d - Z.to_nat d)%nat with (length batch) by lia. rewrite skipn_all, Nat.sub_diag. cbn [skipn app].
  destruct (list_eq_dec _ _ _); [reflexivity|contradiction].
Qed.

Lemma check_ok : forall x d rtol atol batch, (2 <= d)%Z -> shape x = batch ++ repeat 3%nat (Z.to_nat d) ->
  exists r, is_traceless_symmetric x d rtol atol = Ok r /\
    (r = true <-> forall b, Forall2 lt b batch -> passes (Z.to_nat d) rtol atol (fun t => get x (b ++ t))).
Proof.
  intros x d rtol atol batch Hd Hx. unfold is_traceless_symmetric. rewrite (check_shape_ok x d batch) by (try lia; exact Hx).
  unfold check_degree. destruct (Z.ltb_spec d 0); [lia|]. cbn [bind]. destruct (Z.ltb_spec d 2); [lia|].
  set (l := Z.to_nat d) in *. assert (Hl : (2 <= l)%nat) by (unfold l; lia).
  rewrite Hx, app_length, repeat_length. replace (length batch + l - l)%nat with (length batch) by lia. replace (length batch + l - length batch)%nat with l by lia.
  assert (S1 : forallb (fun p => allclose rtol atol x (transpose_array x (seq 0 (length batch) ++ p))) (permutations (seq (length batch) l)) = true <->
    forall b, Forall2 lt b batch -> forall t t', tensor_index l t -> Permutation t t' -> Rabs (get x (b ++ t) - get x (b ++ t')) <= atol + rtol * Rabs (get x (b ++ t'))).
  { rewrite forallb_forall. split.
    - intros H1 b Hb t t' Ht P. destruct (moved_surjective (length batch) l t t' (proj1 Ht) P) as (p & Pp & Ep).
      specialize (H1 p (proj2 (in_permutations _ _ _) Pp)). rewrite allclose_ok in H1. specialize (H1 (b ++ t)).
      rewrite (transposed_get x batch l p b t Hx Pp) in H1 by (try exact (proj1 Ht); clear -Hb; induction Hb; cbn; congruence).
      rewrite Ep in H1. apply H1. rewrite Hx. apply Forall2_app; [exact Hb|now apply index_shape].
    - intros H1 p Hp. apply in_permutations in Hp. apply allclose_ok. intros q Hq. rewrite Hx in Hq. apply Forall2_app_inv_r in Hq as (b & t & Hb & Ht & ->).
      apply index_shape in Ht.
      rewrite (transposed_get x batch l p b t Hx Hp) by (try exact (proj1 Ht); clear -Hb; induction Hb; cbn; congruence).
      apply H1; [exact Hb|exact Ht|]. apply Permutation_sym, moved_perm; [exact Hp|exact (proj1 Ht)]. }
  assert (S2 : allclose rtol atol (trace_array x) (mkArray (shape (trace_array x)) (fun _ => 0)) = true <->
    forall b, Forall2 lt b batch -> forall t, length t = (l - 2)%nat -> Forall (fun i => (i < 3)%nat) t ->
      Rabs (get x (b ++ t ++ [0; 0]%nat) + get x (b ++ t ++ [1; 1]%nat) + get x (b ++ t ++ [2; 2]%nat)) <= atol).
  { rewrite allclose_ok. cbn [get trace_array shape]. rewrite Hx, app_length, repeat_length.
    assert (E1 : last (batch ++ repeat 3%nat l) 0%nat = 3%nat).
    { replace l with (S (l - 1)) by lia. replace (repeat 3%nat (S (l - 1))) with (repeat 3%nat (l - 1) ++ [3%nat]) by (symmetry; apply repeat_cons). now rewrite app_assoc, last_last. }
    assert (E2 : firstn (length batch + l - 2) (batch ++ repeat 3%nat l) = batch ++ repeat 3%nat (l - 2)).
    { rewrite firstn_app. rewrite firstn_all2 by lia. f_equal. replace (length batch + l - 2 - length batch)%nat with (l - 2)%nat by lia.
      replace l with (l - 2 + 2)%nat at 2 by lia. rewrite repeat_app, firstn_app, repeat_length, Nat.sub_diag, firstn_all2 by (rewrite repeat_length; lia). cbn. apply app_nil_r. }
    rewrite E1, E2. split.
    - intros H1 b Hb t Lt Ft. specialize (H1 (b ++ t)). cbn [rsum] in H1. rewrite !Rminus_0_r, Rabs_R0, Rmult_0_r, Rplus_0_r, Rplus_0_l, <- !app_assoc in H1. apply H1.
      apply Forall2_app; [exact Hb|]. apply index_shape. split; assumption.
    - intros H1 q Hq. apply Forall2_app_inv_r in Hq as (b & t & Hb & Ht & ->). apply index_shape in Ht as [Lt Ft]. cbn [rsum].
      rewrite !Rminus_0_r, Rabs_R0, Rmult_0_r, Rplus_0_r, Rplus_0_l, <- !app_assoc. now apply H1. }
  destruct (forallb _ _) eqn:EF.
  - eexists. split; [reflexivity|]. rewrite S2. split.
    + intros H1 b Hb. split; [apply (proj1 S1 eq_refl b Hb)|]. intros t Lt Ft. cbn beta. now apply H1.
    + intros H1 b Hb t Lt Ft. destruct (H1 b Hb) as [_ H2]. now apply H2.
  - exists false. split; [reflexivity|]. split; [discriminate|]. intros H1. apply S1. intros b Hb. exact (proj1 (H1 b Hb)).
Qed.

(** With zero tolerance: symmetric and all traces zero. *)
Lemma passes_zero : forall l T, (2 <= l)%nat -> (passes l 0 0 T <-> symmetric l T /\ traceless l T).
Proof.
  intros l T Hl. unfold passes. split.
  - intros [H1 H2]. assert (SY : symmetric l T).
    { intros t t' Ht P. specialize (H1 t t' Ht P). rewrite Rmult_0_l, Rplus_0_r in H1. pose proof (Rabs_pos (T t - T t')). assert (Z0 : Rabs (T t - T t') = 0) by lra.
      destruct (Req_dec (T t - T t') 0) as [E|E]; [lra|]. apply Rabs_no_R0 in E. contradiction. }
    split; [exact SY|]. intros t1 t2 t3 Ht.
    assert (M : forall i, (i < 3)%nat -> T (t1 ++ [i] ++ t2 ++ [i] ++ t3) = T ((t1 ++ t2 ++ t3) ++ [i; i])).
    { intros i Hi. apply SY.
      - destruct Ht as [L F]. split; [rewrite !app_length in L |- *; cbn [length] in *; exact L|]. rewrite !Forall_app in *. destruct F as (F1 & _ & F2 & _ & F3). repeat split; auto.
      - transitivity (i :: i :: t1 ++ t2 ++ t3); [|rewrite <- (Permutation_app_comm [i; i]); reflexivity].
        cbn [app]. rewrite <- (Permutation_middle t1). apply perm_skip. rewrite !app_assoc. rewrite <- (Permutation_middle (t1 ++ t2)). reflexivity. }
    rewrite !M by lia. destruct Ht as [L F].
    assert (Z0 : Rabs (T ((t1 ++ t2 ++ t3) ++ [0; 0]%nat) + T ((t1 ++ t2 ++ t3) ++ [1; 1]%nat) + T ((t1 ++ t2 ++ t3) ++ [2; 2]%nat)) <= 0).
    { apply H2; [rewrite !app_length in L; cbn [length] in L; rewrite !app_length; lia|].
      rewrite !Forall_app in F. destruct F as (F1 & _ & F2 & _ & F3). rewrite !Forall_app. auto. }
    match type of Z0 with Rabs ?a <= 0 => pose proof (Rabs_pos a); destruct (Req_dec a 0) as [E|E]; [exact E|]; apply Rabs_no_R0 in E; lra end.
  - intros [SY TR]. split.
    + intros t t' Ht P. rewrite (SY t t' Ht P), Rminus_diag_eq, Rabs_R0 by reflexivity. lra.
    + intros t Lt Ft. specialize (TR t [] []). cbn [app] in TR. rewrite TR, Rabs_R0; [lra|].
      split; [rewrite app_length; cbn; lia|]. apply Forall_app. split; [exact Ft|]. repeat constructor.
Qed.
Lemma passes_exact : forall l T rtol atol, (2 <= l)%nat -> 0 <= rtol -> 0 <= atol -> symmetric l T -> traceless l T -> passes l rtol atol T.
Proof.
  intros l T rtol atol Hl Hr Ha SY TR. assert (P : passes l 0 0 T) by (apply passes_zero; auto).
  destruct P as [P1 P2]. split.
  - intros t t' Ht P. specialize (P1 t t' Ht P). pose proof (Rmult_le_pos _ _ Hr (Rabs_pos (T t'))). rewrite Rmult_0_l in P1. lra.
  - intros t Lt Ft. specialize (P2 t Lt Ft). lra.
Qed.
