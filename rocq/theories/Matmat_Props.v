(** Properties C53, C54 and C63: matrices assembled from irreps. *)
Require Import List Reals ZArith Bool Lia Lra.
Require Import ZifyNat.
Require Import Verif.Base Verif.RSum Verif.Matmat_Model Verif.Matmat_Spec Verif.Matmat_Proofs Verif.Matmat_More_Proofs
  Verif.Modules_Spec Verif.Modules_Props.
Import ListNotations.
Open Scope R_scope.
Arguments Nat.mul : simpl never.

(** * C53 *)

(** The dictionary counts, for every degree, the pairs of parts whose product contains it. *)
Theorem C53_multiplicities : forall degrees md l, lookup (make_dict_irreps_mult degrees md) l = multiplicity degrees md l.
Proof. exact lookup_dict. Qed.
Print Assumptions C53_multiplicities.

(** The pipeline dictionary - weights - combination - matrix never raises, whatever the degrees,
    multiplicities and inputs; every array has exactly the irreps that are needed; and every entry
    of the matrix is given by the irreps assigned to its block. *)
Theorem C53_pipeline : forall clebsch_gordan normal n_shells degrees L md mult stddev inputs shift C,
  max_of degrees L -> (L <= md)%nat ->
  clebsch_gordan (Z.of_nat L) (Z.of_nat L) (Z.of_nat md) = Ok C ->
  cols inputs = n_shells -> ((Nat.min (L + L) md + 1) * (Nat.min (L + L) md + 1) <= rows inputs)%nat ->
  exists weights irreps M,
    init_matrix_irreps_weights normal n_shells (make_dict_irreps_mult degrees (Some md)) mult stddev = Ok weights
    /\ combine_irreps inputs weights = Ok irreps
    /\ irreps_shape (Nat.min (L + L) md + 1) (fun l => total_with degrees l * (mult * mult))%nat irreps
    /\ (forall l k c, (l <= Nat.min (L + L) md)%nat ->
          irrep irreps l k c = rsum n_shells (fun i => normal l i c * stddev / sqrt (INR (2 * l + 1)) * val inputs (l * l + k)%nat i))
    /\ make_square_matrix clebsch_gordan irreps degrees mult md shift = Ok M
    /\ rows M = offset degrees mult (length degrees) /\ cols M = offset degrees mult (length degrees)
    /\ forall A i u B j v, in_group degrees mult A i u -> in_group degrees mult B j v ->
         val M (position degrees mult A i u) (position degrees mult B j v)
         = assembled C (Nat.min (L + L) md + 1) degrees mult irreps A i u B j v
           + (if shift && (position degrees mult A i u =? position degrees mult B j v)%nat then 1 else 0).
Proof.
  intros cgf normal n_shells degrees L md mult stddev inputs shift C HM HL HC HF HR.
  destruct (weights_shape normal n_shells degrees md mult stddev L HM) as [weights [EW [LW HW]]].
  destruct (combine_shape inputs weights _ n_shells (fun l => total_with degrees l * (mult * mult))%nat LW HF HR) as [irreps [EI [HS HV]]].
  { intros l w Hl. destruct (HW l w Hl) as [H1 [H2 _]]. auto. }
  destruct (square_ok cgf irreps _ _ degrees mult L md shift C HS ltac:(lia) HM HL HC) as [M [EM [R1 [R2 V]]]]; [reflexivity|].
  exists weights, irreps, M. split; [exact EW|]. split; [exact EI|]. split; [exact HS|]. split.
  { intros l k c Hl. destruct (nth_error weights l) as [w|] eqn:Ew; [|apply nth_error_None in Ew; lia].
    rewrite (HV l w k c Ew). apply rsum_ext. intros i Hi. destruct (HW l w Ew) as [_ [_ ->]]. reflexivity. }
  split; [exact EM|]. split; [exact R1|]. split; [exact R2|]. intros A i u B j v Hu Hv. rewrite V by assumption. unfold eye. destruct shift; reflexivity.
Qed.
Print Assumptions C53_pipeline.

(** For any irreps of the right kind the matrix is built if and only if there are enough of them;
    its entries are then as stated, and extra irreps are ignored. *)
Theorem C53_enough_irreps : forall clebsch_gordan irreps N number degrees mult L md shift C,
  irreps_shape N number irreps -> (0 < N <= md + 1)%nat -> max_of degrees L -> (L <= md)%nat ->
  clebsch_gordan (Z.of_nat L) (Z.of_nat L) (Z.of_nat md) = Ok C ->
  ((exists M, make_square_matrix clebsch_gordan irreps degrees mult md shift = Ok M)
     <-> forall l, (l < N)%nat -> (total_with degrees l * (mult * mult) <= number l)%nat)
  /\ forall M, make_square_matrix clebsch_gordan irreps degrees mult md shift = Ok M ->
     rows M = offset degrees mult (length degrees) /\ cols M = offset degrees mult (length degrees)
     /\ forall A i u B j v, in_group degrees mult A i u -> in_group degrees mult B j v ->
       val M (position degrees mult A i u) (position degrees mult B j v)
       = assembled C N degrees mult irreps A i u B j v
         + (if shift && (position degrees mult A i u =? position degrees mult B j v)%nat then 1 else 0).
Proof.
  intros cgf irreps N number degrees mult L md shift C HS HN HM HL HC. split.
  - split.
    + intros [M H]. exact (square_inv cgf irreps N number degrees mult L md shift C M HS HN HM HL HC H).
    + intros H. destruct (square_ok cgf irreps N number degrees mult L md shift C HS HN HM HL HC H) as [M [E _]]. eauto.
  - intros M H. pose proof (square_inv cgf irreps N number degrees mult L md shift C M HS HN HM HL HC H) as F.
    destruct (square_ok cgf irreps N number degrees mult L md shift C HS HN HM HL HC F) as [M' [E [R1 [R2 V]]]].
    rewrite H in E. injection E as <-. split; [exact R1|]. split; [exact R2|]. intros A i u B j v Hu Hv. rewrite V by assumption. unfold eye. destruct shift; reflexivity.
Qed.
Print Assumptions C53_enough_irreps.

(** Every irrep of degree l is used in exactly one block. *)
Theorem C53_used_once : forall degrees mult l,
  (forall A B i j, (A < length degrees)%nat -> (B < length degrees)%nat -> (i < mult)%nat -> (j < mult)%nat ->
     triangle (degree_at degrees A) (degree_at degrees B) l = true ->
     (column degrees mult l A B i j < total_with degrees l * (mult * mult))%nat)
  /\ (forall A B i j A' B' i' j',
     (A < length degrees)%nat -> (B < length degrees)%nat -> (i < mult)%nat -> (j < mult)%nat ->
     (A' < length degrees)%nat -> (B' < length degrees)%nat -> (i' < mult)%nat -> (j' < mult)%nat ->
     triangle (degree_at degrees A) (degree_at degrees B) l = true -> triangle (degree_at degrees A') (degree_at degrees B') l = true ->
     column degrees mult l A B i j = column degrees mult l A' B' i' j' -> A = A' /\ B = B' /\ i = i' /\ j = j')
  /\ (forall c, (c < total_with degrees l * (mult * mult))%nat ->
     exists A B i j, (A < length degrees)%nat /\ (B < length degrees)%nat /\ (i < mult)%nat /\ (j < mult)%nat
     /\ triangle (degree_at degrees A) (degree_at degrees B) l = true /\ column degrees mult l A B i j = c).
Proof.
  intros degrees mult l. split; [|split].
  - intros. apply column_lt; assumption.
  - intros. eapply column_inj; eassumption.
  - apply column_surj.
Qed.
Print Assumptions C53_used_once.

(** The blocks tile the matrix: every row (column) belongs to exactly one component of one copy of
    one degree. *)
Theorem C53_tiles : forall degrees mult r, (r < offset degrees mult (length degrees))%nat ->
  (exists A i u, in_group degrees mult A i u /\ r = position degrees mult A i u)
  /\ forall A i u A' i' u', in_group degrees mult A i u -> in_group degrees mult A' i' u' ->
       position degrees mult A i u = position degrees mult A' i' u' -> A = A' /\ i = i' /\ u = u'.
Proof.
  intros degrees mult r Hr. split; [exact (position_surj degrees mult r Hr)|]. intros. apply (position_inj degrees mult); assumption.
Qed.
Print Assumptions C53_tiles.

Theorem C53_positions_in_matrix : forall degrees mult A i u, in_group degrees mult A i u ->
  (position degrees mult A i u < offset degrees mult (length degrees))%nat.
Proof.
  intros degrees mult A i u H. pose proof (position_bounds degrees mult A i u H). destruct H as [HA _].
  pose proof (offset_mono degrees mult (S A) (length degrees) ltac:(lia) (le_n _)). lia.
Qed.
Print Assumptions C53_positions_in_matrix.

(** Errors: no degrees; a maximum degree below the largest degree; an array with an even number of
    components; coefficients that are not available. *)
Theorem C53_argument_errors : forall clebsch_gordan irreps degrees mult md shift,
  (degrees = [] -> make_square_matrix clebsch_gordan irreps degrees mult md shift = Err ValueError)
  /\ (forall L, max_of degrees L -> (md < L)%nat -> make_square_matrix clebsch_gordan irreps degrees mult md shift = Err ValueError)
  /\ (forall x, In x irreps -> Nat.even (rows x) = true -> make_square_matrix clebsch_gordan irreps degrees mult md shift = Err ValueError).
Proof.
  intros cgf irreps degrees mult md shift. split; [|split].
  - intros ->. reflexivity.
  - intros L HM HL. unfold make_square_matrix. rewrite (proj2 (list_max1_spec degrees L) HM). cbn [bind]. destruct (Nat.ltb_spec md L); [reflexivity|lia].
  - intros x Hx He. unfold make_square_matrix. destruct (list_max1 degrees) as [L|e] eqn:E.
    + cbn [bind]. destruct (md <? L)%nat; [reflexivity|].
      assert (EX : existsb (fun x => (rows x mod 2 =? 0)%nat) irreps = true).
      { apply existsb_exists. exists x. split; [exact Hx|]. apply Nat.even_spec in He. destruct He as [k ->]. apply Nat.eqb_eq. lia. }
      rewrite EX. reflexivity.
    + destruct degrees; [cbn in E; injection E as <-; reflexivity|discriminate].
Qed.
Print Assumptions C53_argument_errors.

(** Degrees 0, 1 twice each: a 8 x 8 matrix from 8 scalars and 12 vectors. *)
Definition case_inputs : mat := mkMat 4 2 (fun q f => INR (q + 4 * f)).

Example C53_pipeline_case : max_of [0; 1]%nat 1 /\ case_cg (Z.of_nat 1) (Z.of_nat 1) (Z.of_nat 1) = Ok case_coupling
  /\ cols case_inputs = 2%nat /\ ((Nat.min (1 + 1) 1 + 1) * (Nat.min (1 + 1) 1 + 1) <= rows case_inputs)%nat
  /\ make_dict_irreps_mult [0; 1]%nat (Some 1%nat) = [(0, 2); (1, 3)]%nat
  /\ offset [0; 1]%nat 2 2 = 8%nat /\ (total_with [0; 1] 0 * (2 * 2) = 8)%nat /\ (total_with [0; 1] 1 * (2 * 2) = 12)%nat
  /\ column [0; 1]%nat 2 1 1 0 1 0 = 6%nat /\ position [0; 1]%nat 2 1 1 2 = 7%nat /\ in_group [0; 1]%nat 2 1 1 2.
Proof.
  assert (M : max_of [0; 1]%nat 1) by (split; [right; left; reflexivity|intros x [<-|[<-|[]]]; lia]).
  repeat split; try (vm_compute; reflexivity); try apply M; cbn; lia.
Qed.

Definition case_irreps : list mat := [mkMat 1 8 (fun _ c => INR c + 1); mkMat 3 12 (fun k c => INR (k + 3 * c))].

Example C53_enough_irreps_case : irreps_shape 2 (fun l => if (l =? 0)%nat then 8 else 12)%nat case_irreps
  /\ (forall l, (l < 2)%nat -> (total_with [0; 1] l * (2 * 2) <= (if (l =? 0) then 8 else 12))%nat)
  /\ exists M, make_square_matrix case_cg case_irreps [0; 1]%nat 2 1 true = Ok M.
Proof.
  assert (HS : irreps_shape 2 (fun l => if (l =? 0)%nat then 8 else 12)%nat case_irreps).
  { split; [reflexivity|]. intros [|[|l]] x H; cbn in H; try (destruct l; discriminate); injection H as <-; split; reflexivity. }
  assert (HE : forall l, (l < 2)%nat -> (total_with [0; 1] l * (2 * 2) <= (if (l =? 0) then 8 else 12))%nat).
  { intros [|[|l]] Hl; [vm_compute; lia|vm_compute; lia|lia]. }
  split; [exact HS|]. split; [exact HE|].
  refine (proj2 (proj1 (C53_enough_irreps case_cg case_irreps 2 _ [0; 1]%nat 2 1 1 true case_coupling HS _ _ _ eq_refl)) HE); [lia| |lia].
  split; [right; left; reflexivity|intros x [<-|[<-|[]]]; lia].
Qed.

(** With one scalar less it raises. *)
Example C53_too_few_case : make_square_matrix case_cg [mkMat 1 7 (fun _ c => INR c); mkMat 3 12 (fun k c => INR (k + 3 * c))] [0; 1]%nat 2 1 true = Err TypeError.
Proof. vm_compute. reflexivity. Qed.

(** * C54 *)

(** Traces of the blocks of an assembled matrix: the identity cancels, and what remains is the
    scalar irrep of the block, times the square root of the size of the block. *)
Theorem C54_traces : forall clebsch_gordan irreps N number degrees mult L md shift C M,
  irreps_shape N number irreps -> (0 < N <= md + 1)%nat -> max_of degrees L -> (L <= md)%nat ->
  clebsch_gordan (Z.of_nat L) (Z.of_nat L) (Z.of_nat md) = Ok C ->
  cg_orthonormal (L + 1) N C -> cg_scalar (L + 1) C ->
  make_square_matrix clebsch_gordan irreps degrees mult md shift = Ok M ->
  length (get_traces M degrees mult shift) = (length degrees * (mult * mult))%nat
  /\ forall A i j, (A < length degrees)%nat -> (i < mult)%nat -> (j < mult)%nat ->
     nth_error (get_traces M degrees mult shift) (A * (mult * mult) + (i * mult + j))
     = Some (sqrt (INR (2 * degree_at degrees A + 1)) * irrep irreps 0 0 (column degrees mult 0 A A i j)).
Proof.
  intros cgf irreps N number degrees mult L md shift C M HS HN HM HL HC HO HSc EM.
  destruct (proj2 (C53_enough_irreps cgf irreps N number degrees mult L md shift C HS HN HM HL HC) M EM) as [_ [_ V]].
  destruct (traces_ok M degrees mult shift) as [EL T]. split; [exact EL|]. intros A i j HA Hi Hj. rewrite T by assumption. f_equal.
  assert (HAL : (degree_at degrees A < L + 1)%nat) by (assert (degree_at degrees A <= L)%nat by (apply HM; apply nth_In; exact HA); lia).
  rewrite <- (assembled_trace C N degrees mult irreps A i j (L + 1)) by (assumption || lia).
  transitivity (rsum (2 * degree_at degrees A + 1) (fun u => assembled C N degrees mult irreps A i u A j u + (if shift && (i =? j)%nat then 1 else 0))
                - (if shift && (i =? j)%nat then INR (2 * degree_at degrees A + 1) else 0)).
  - f_equal. apply rsum_ext. intros u Hu.
    assert (G1 : in_group degrees mult A i u) by (repeat split; assumption). assert (G2 : in_group degrees mult A j u) by (repeat split; assumption).
    rewrite V by assumption. f_equal.
    replace (position degrees mult A i u =? position degrees mult A j u)%nat with (i =? j)%nat; [reflexivity|].
    destruct (Nat.eqb_spec i j) as [->|Hne]; symmetry; [apply Nat.eqb_refl|]. apply Nat.eqb_neq. intros E.
    destruct (position_inj degrees mult _ _ _ _ _ _ G1 G2 E) as [_ [E2 _]]. congruence.
  - rewrite rsum_plus, rsum_const. destruct (shift && (i =? j)%nat); ring.
Qed.
Print Assumptions C54_traces.

(** In particular the traces do not depend on whether the identity was added (and taken into
    account). *)
Theorem C54_shift_cancels : forall clebsch_gordan irreps N number degrees mult L md C M M',
  irreps_shape N number irreps -> (0 < N <= md + 1)%nat -> max_of degrees L -> (L <= md)%nat ->
  clebsch_gordan (Z.of_nat L) (Z.of_nat L) (Z.of_nat md) = Ok C ->
  make_square_matrix clebsch_gordan irreps degrees mult md true = Ok M ->
  make_square_matrix clebsch_gordan irreps degrees mult md false = Ok M' ->
  get_traces M degrees mult true = get_traces M' degrees mult false.
Proof.
  intros cgf irreps N number degrees mult L md C M M' HS HN HM HL HC E E'.
  destruct (proj2 (C53_enough_irreps cgf irreps N number degrees mult L md true C HS HN HM HL HC) M E) as [_ [_ V]].
  destruct (proj2 (C53_enough_irreps cgf irreps N number degrees mult L md false C HS HN HM HL HC) M' E') as [_ [_ V']].
  destruct (traces_ok M degrees mult true) as [L1 T1]. destruct (traces_ok M' degrees mult false) as [L2 T2].
  apply (nth_ext _ _ 0 0); [congruence|]. intros q Hq. rewrite L1 in Hq.
  assert (Hm : (0 < mult)%nat) by (destruct mult; lia).
  set (A := (q / (mult * mult))%nat). set (w := (q mod (mult * mult))%nat). set (i := (w / mult)%nat). set (j := (w mod mult)%nat).
  assert (Hw : (w < mult * mult)%nat) by (apply Nat.mod_upper_bound; nia).
  assert (HA : (A < length degrees)%nat) by (apply Nat.div_lt_upper_bound; [nia|lia]).
  assert (Hi : (i < mult)%nat) by (apply Nat.div_lt_upper_bound; lia). assert (Hj : (j < mult)%nat) by (apply Nat.mod_upper_bound; lia).
  assert (Eq : q = (A * (mult * mult) + (i * mult + j))%nat).
  { pose proof (Nat.div_mod q (mult * mult) ltac:(nia)). pose proof (Nat.div_mod w mult ltac:(lia)). unfold A, i, j. fold w in H. lia. }
  pose proof (T1 A i j HA Hi Hj) as N1. pose proof (T2 A i j HA Hi Hj) as N2. rewrite <- Eq in N1, N2.
  rewrite (nth_error_nth _ _ 0 N1), (nth_error_nth _ _ 0 N2). cbn [andb].
  transitivity (rsum (2 * degree_at degrees A + 1) (fun u => val M' (position degrees mult A i u) (position degrees mult A j u) + (if (i =? j)%nat then 1 else 0))
                - (if (i =? j)%nat then INR (2 * degree_at degrees A + 1) else 0)).
  - f_equal. apply rsum_ext. intros u Hu.
    assert (G1 : in_group degrees mult A i u) by (repeat split; assumption). assert (G2 : in_group degrees mult A j u) by (repeat split; assumption).
    rewrite V, V' by assumption. cbn [andb].
    replace (position degrees mult A i u =? position degrees mult A j u)%nat with (i =? j)%nat; [ring|].
    destruct (Nat.eqb_spec i j) as [->|Hne]; symmetry; [apply Nat.eqb_refl|]. apply Nat.eqb_neq. intros E0.
    destruct (position_inj degrees mult _ _ _ _ _ _ G1 G2 E0) as [_ [E2 _]]. congruence.
  - rewrite rsum_plus, rsum_const. destruct (i =? j)%nat; ring.
Qed.
Print Assumptions C54_shift_cancels.

Lemma case_cg_orthonormal : cg_orthonormal 2 2 case_coupling.
Proof.
  intros la l l' k k' H1 H2 H3 Hk Hk' Hl Hl'.
  assert (S3 : / sqrt 3 * / sqrt 3 = / 3) by (rewrite <- Rinv_mult, sqrt_sqrt by lra; reflexivity).
  assert (S2 : / sqrt 2 * / sqrt 2 = / 2) by (rewrite <- Rinv_mult, sqrt_sqrt by lra; reflexivity).
  destruct la as [|[|?]]; [| |lia]; destruct l as [|[|?]]; try lia; destruct l' as [|[|?]]; try lia;
    change (2 * 0 + 1)%nat with 1%nat in *; change (2 * 1 + 1)%nat with 3%nat in *; change (1 * 1)%nat with 1%nat; change (0 * 0)%nat with 0%nat;
    try (assert (k = 0%nat) by lia; subst k); try (assert (k' = 0%nat) by lia; subst k'); try (three k); try (three k'); cbn; lra.
Qed.

Lemma case_cg_scalar : cg_scalar 2 case_coupling.
Proof.
  intros la u v H Hu Hv. destruct la as [|[|?]]; [| |lia].
  - change (2 * 0 + 1)%nat with 1%nat in *. assert (u = 0%nat) by lia. assert (v = 0%nat) by lia. subst. change (0 * 0)%nat with 0%nat. cbn. rewrite sqrt_1. unfold Rdiv. rewrite Rinv_1. ring.
  - change (2 * 1 + 1)%nat with 3%nat in *. change (1 * 1)%nat with 1%nat. three u; three v; cbn; replace (1 + 1 + 1) with 3 by lra; unfold Rdiv; ring.
Qed.

Example C54_traces_case : exists M, make_square_matrix case_cg case_irreps [0; 1]%nat 2 1 true = Ok M
  /\ nth_error (get_traces M [0; 1]%nat 2 true) 6 = Some (sqrt (INR 3) * (INR 6 + 1)).
Proof.
  destruct C53_enough_irreps_case as [HS [_ [M E]]]. exists M. split; [exact E|].
  assert (HM : max_of [0; 1]%nat 1) by (split; [right; left; reflexivity|intros x [<-|[<-|[]]]; lia]).
  exact (proj2 (C54_traces case_cg case_irreps 2 _ [0; 1]%nat 2 1 1 true case_coupling M HS ltac:(lia) HM ltac:(lia) eq_refl case_cg_orthonormal case_cg_scalar E)
    1%nat 1%nat 0%nat ltac:(cbn; lia) ltac:(lia) ltac:(lia)).
Qed.

(** * C63 *)

(** Rotating the irreps rotates the matrix: every block is multiplied by the rotation matrices of
    its degrees on both sides; the identity is unchanged. *)
Theorem C63_matrix_equivariant : forall clebsch_gordan irreps irreps' N number degrees mult L md shift C D M,
  irreps_shape N number irreps -> (0 < N <= md + 1)%nat -> max_of degrees L -> (L <= md)%nat ->
  clebsch_gordan (Z.of_nat L) (Z.of_nat L) (Z.of_nat md) = Ok C ->
  intertwines (L + 1) (L + 1) (md + 1) C D -> blocks_orthogonal (md + 1) D ->
  irreps_transformed D irreps irreps' ->
  make_square_matrix clebsch_gordan irreps degrees mult md shift = Ok M ->
  exists M', make_square_matrix clebsch_gordan irreps' degrees mult md shift = Ok M'
  /\ rows M' = rows M /\ cols M' = cols M
  /\ forall A i u B j v, in_group degrees mult A i u -> in_group degrees mult B j v ->
     let la := degree_at degrees A in let lb := degree_at degrees B in
     val M' (position degrees mult A i u) (position degrees mult B j v)
     = rsum (2 * la + 1) (fun u' => rsum (2 * lb + 1) (fun v' =>
         D (la * la + u')%nat (la * la + u)%nat * val M (position degrees mult A i u') (position degrees mult B j v') * D (lb * lb + v')%nat (lb * lb + v)%nat)).
Proof.
  intros cgf irreps irreps' N number degrees mult L md shift C D M HS HN HM HL HC HI HO HT EM.
  assert (HS' : irreps_shape N number irreps').
  { destruct HS as [S1 S2], HT as [T1 T2]. split; [congruence|]. intros l x' Hx'.
    destruct (nth_error irreps l) as [x|] eqn:Ex.
    - destruct (T2 l x Ex) as [y [Ey [Er [Ec _]]]]. rewrite Hx' in Ey. injection Ey as <-. rewrite Er, Ec. apply (S2 l x Ex).
    - apply nth_error_None in Ex. assert (l < length irreps')%nat by (apply nth_error_Some; congruence). lia. }
  destruct (C53_enough_irreps cgf irreps N number degrees mult L md shift C HS HN HM HL HC) as [I V].
  destruct (C53_enough_irreps cgf irreps' N number degrees mult L md shift C HS' HN HM HL HC) as [I' V'].
  destruct (proj2 I' (proj1 I (ex_intro _ M EM))) as [M' EM'].
  destruct (V M EM) as [R1 [R2 VM]]. destruct (V' M' EM') as [R1' [R2' VM']].
  exists M'. split; [exact EM'|]. split; [congruence|]. split; [congruence|]. intros A i u B j v Hu Hv. cbn zeta.
  assert (HA : (degree_at degrees A < L + 1)%nat) by (assert (degree_at degrees A <= L)%nat by (apply HM; apply nth_In; apply Hu); lia).
  assert (HB : (degree_at degrees B < L + 1)%nat) by (assert (degree_at degrees B <= L)%nat by (apply HM; apply nth_In; apply Hv); lia).
  assert (HIT : intertwines (L + 1) (L + 1) N C (fun a b => D b a)).
  { apply (intertwines_transpose _ _ _ (md + 1)%nat); [|exact HO|lia|lia|lia]. intros l1 l2 l3 a b c H1 H2 H3. apply HI; (assumption || lia). }
  assert (HOL : blocks_orthogonal (L + 1) D) by (intros l a b Hl; apply HO; lia).
  rewrite VM' by assumption.
  rewrite (assembled_transformed C N (L + 1) D degrees mult irreps irreps' A i u B j v HIT HT (proj1 HS) HA HB (proj2 (proj2 Hu)) (proj2 (proj2 Hv))). cbn zeta.
  set (la := degree_at degrees A) in *. set (lb := degree_at degrees B) in *.
  assert (EE : (if shift && (position degrees mult A i u =? position degrees mult B j v)%nat then 1 else 0)
    = rsum (2 * la + 1) (fun u' => rsum (2 * lb + 1) (fun v' => D (la * la + u')%nat (la * la + u)%nat * D (lb * lb + v')%nat (lb * lb + v)%nat
        * (if shift && (position degrees mult A i u' =? position degrees mult B j v')%nat then 1 else 0)))).
  { destruct shift; cbn [andb].
    - exact (eye_transformed (L + 1) D degrees mult A i u B j v HOL Hu Hv HA HB).
    - symmetry. apply rsum_zero. intros u' Hu'. apply rsum_zero. intros v' Hv'. ring. }
  rewrite EE, <- rsum_plus. apply rsum_ext. intros u' Hu'. rewrite <- rsum_plus. apply rsum_ext. intros v' Hv'.
  destruct Hu as [? [? ?]], Hv as [? [? ?]]. rewrite VM by (repeat split; assumption). ring.
Qed.
Print Assumptions C63_matrix_equivariant.

Example C63_matrix_equivariant_case : forall t,
  intertwines 2 2 2 case_coupling (case_wigner t []) /\ blocks_orthogonal 2 (case_wigner t [])
  /\ irreps_transformed (case_wigner t []) case_irreps
       [mkMat 1 8 (fun _ c => INR c + 1);
        mkMat 3 12 (fun k c => match k with
                               | O => INR (3 * c) * cos t - INR (1 + 3 * c) * sin t
                               | S O => INR (3 * c) * sin t + INR (1 + 3 * c) * cos t
                               | _ => INR (2 + 3 * c) end)].
Proof.
  intros t. split; [exact (case_commutes t 1%Z 1%Z 1%Z case_coupling [] eq_refl)|]. split.
  - intros l a b Hl Ha Hb. exact (case_orthogonal t [] l a b Ha Hb).
  - split; [reflexivity|]. intros [|[|l]] x H; cbn in H; [| |destruct l; discriminate]; injection H as <-; (eexists; split; [reflexivity|]; split; [reflexivity|]; split; [reflexivity|]).
    + intros k c Hk. change (2 * 0 + 1)%nat with 1%nat in *. assert (k = 0%nat) by lia. subst k. change (0 * 0)%nat with 0%nat. cbn. ring.
    + intros k c Hk. change (2 * 1 + 1)%nat with 3%nat in *. change (1 * 1)%nat with 1%nat. three k; cbn [val rsum case_wigner Nat.add Nat.eqb]; ring.
Qed.
