(** More theorems for C09, C52 and C53, added after edits of the model that no theorem noticed. *)
Require Import List Reals ZArith Bool Lia.
Require Import Verif.Base Verif.RSum Verif.Indexed_Model Verif.Quadrature_Model Verif.Matmat_Model.
Import ListNotations.

(** With batches, every batch element is gathered with its own indices; batches of different sizes are rejected. *)
Theorem C09_gather_batched : forall (A : Type) (d : A) x adj,
  (length x = length adj -> exists ys, gather_dense_batched d x adj = Ok ys /\ length ys = length x /\
     forall b n m, (b < length x)%nat -> (n < length (nth b adj []))%nat -> (m < length (nth n (nth b adj []) []))%nat ->
       nth m (nth n (nth b ys []) []) d = take d (nth b x []) (nth m (nth n (nth b adj []) []) 0%Z))
  /\ (length x <> length adj -> gather_dense_batched d x adj = Err ValueError).
Proof.
  intros A d x adj. unfold gather_dense_batched. split.
  - intro E. rewrite E, Nat.eqb_refl. eexists. split; [reflexivity|]. split; [rewrite map_length, combine_length; lia|]. intros b n m B N M.
    set (h := fun p : list A * adjacency => gather_dense d (fst p) (snd p)).
    assert (Q : nth b (map h (combine x adj)) [] = gather_dense d (nth b x []) (nth b adj [])).
    { rewrite (nth_indep _ [] (h ([], []))) by (rewrite map_length, combine_length; lia). rewrite map_nth, combine_nth by exact E. reflexivity. }
    rewrite Q. unfold gather_dense. rewrite (nth_indep _ [] (map (take d (nth b x [])) [])) by now rewrite map_length. rewrite map_nth.
    rewrite (nth_indep _ d (take d (nth b x []) 0%Z)) by now rewrite map_length. now rewrite map_nth.
  - intro N. destruct (Nat.eqb_spec (length x) (length adj)); [contradiction|reflexivity].
Qed.
Print Assumptions C09_gather_batched.

Example C09_gather_batched_case : gather_dense_batched 0%Z [[10; 11]; [20; 21]]%Z [[[1%Z]]; [[0%Z]]] = Ok [[[11%Z]]; [[20%Z]]].
Proof. reflexivity. Qed.

Theorem C09_gather_sparse_batched : forall (A : Type) (d : A) x idx,
  (length x = length idx -> exists ys, gather_sparse_batched d x idx = Ok ys /\ length ys = length x /\
     forall b e, (b < length x)%nat -> (e < length (nth b idx []))%nat -> nth e (nth b ys []) d = take d (nth b x []) (nth e (nth b idx []) 0%Z))
  /\ (length x <> length idx -> gather_sparse_batched d x idx = Err ValueError).
Proof.
  intros A d x idx. unfold gather_sparse_batched. split.
  - intro E. rewrite E, Nat.eqb_refl. eexists. split; [reflexivity|]. split; [rewrite map_length, combine_length; lia|]. intros b e B N.
    set (h := fun p : list A * list Z => gather_sparse d (fst p) (snd p)).
    assert (Q : nth b (map h (combine x idx)) [] = gather_sparse d (nth b x []) (nth b idx [])).
    { rewrite (nth_indep _ [] (h ([], []))) by (rewrite map_length, combine_length; lia). rewrite map_nth, combine_nth by exact E. reflexivity. }
    rewrite Q. unfold gather_sparse. rewrite (nth_indep _ d (take d (nth b x []) 0%Z)) by now rewrite map_length. now rewrite map_nth.
  - intro N. destruct (Nat.eqb_spec (length x) (length idx)); [contradiction|reflexivity].
Qed.
Print Assumptions C09_gather_sparse_batched.

Example C09_gather_sparse_batched_case : gather_sparse_batched 0%Z [[10; 11]; [20; 21]]%Z [[1; 0]; [0; 0]]%Z = Ok [[11; 10]; [20; 20]]%Z.
Proof. reflexivity. Qed.

Local Open Scope Z_scope.

(** The shipped rules: the orders of Lebedev's rules are all odd numbers up to 31 and then every sixth number up to 131; those of
    Delley's rules are 7 and every sixth number from 5 to 101.  Rules with an order of the form 6 m + 5 have (p + 1)^2 / 3 + 2
    points, the others between 0 and 13 points more than (p + 1)^2 / 3, which is the number of points that is necessary in general. *)
Definition orders (rules : list Z) (allowed : Z -> Prop) : Prop := forall p, In p rules <-> allowed p.
Definition points_of_order (p n : Z) : Prop := (p + 1) ^ 2 <= 3 * n <= (p + 1) ^ 2 + 39 /\ (p mod 6 = 5 -> 3 * n = (p + 1) ^ 2 + 6).
Theorem C52_orders :
  orders lebedev_precision (fun p => (3 <= p <= 31 /\ p mod 2 = 1) \/ (35 <= p <= 131 /\ p mod 6 = 5)) /\
  orders delley_precision (fun p => p = 7 \/ (5 <= p <= 101 /\ p mod 6 = 5)) /\
  length lebedev_num = length lebedev_precision /\ length delley_num = length delley_precision /\
  (forall i, (i < length lebedev_precision)%nat -> points_of_order (nth i lebedev_precision 0) (nth i lebedev_num 0)) /\
  (forall i, (i < length delley_precision)%nat -> points_of_order (nth i delley_precision 0) (nth i delley_num 0)).
Proof.
  assert (B : forall (rules : list Z) (allowed : Z -> bool) top, forallb (fun p => allowed p && (0 <=? p) && (p <=? top)) rules = true -> forallb (fun k => implb (allowed (Z.of_nat k)) (existsb (Z.eqb (Z.of_nat k)) rules)) (seq 0 (Z.to_nat top + 1)) = true -> (forall p, allowed p = true -> 0 <= p <= top) -> orders rules (fun p => allowed p = true)).
  { intros rules allowed top H1 H2 H3 p. rewrite forallb_forall in H1, H2. split.
    - intro I. specialize (H1 p I). apply andb_true_iff in H1. destruct H1 as [H1 _]. now apply andb_true_iff in H1.
    - intro P. destruct (H3 p P) as [L U]. specialize (H2 (Z.to_nat p) ltac:(apply in_seq; lia)). rewrite Z2Nat.id in H2 by exact L. rewrite P in H2. cbn [implb] in H2. apply existsb_exists in H2. destruct H2 as (q & I & E). apply Z.eqb_eq in E. now subst q. }
  split; [|split; [|split; [reflexivity|split; [reflexivity|split]]]].
  - pose proof (B lebedev_precision (fun p => ((3 <=? p) && (p <=? 31) && (p mod 2 =? 1)) || ((35 <=? p) && (p <=? 131) && (p mod 6 =? 5))) 131 eq_refl eq_refl) as Q.
    intro p. rewrite (Q ltac:(intros q E; rewrite orb_true_iff, !andb_true_iff, !Z.leb_le in E; lia) p). rewrite orb_true_iff, !andb_true_iff, !Z.leb_le, !Z.eqb_eq. tauto.
  - pose proof (B delley_precision (fun p => (p =? 7) || ((5 <=? p) && (p <=? 101) && (p mod 6 =? 5))) 101 eq_refl eq_refl) as Q.
    intro p. rewrite (Q ltac:(intros q E; rewrite orb_true_iff, !andb_true_iff, !Z.leb_le, Z.eqb_eq in E; lia) p). rewrite orb_true_iff, !andb_true_iff, !Z.leb_le, !Z.eqb_eq. tauto.
  - intros i H. unfold points_of_order. do 32 (destruct i as [|i]; [cbn; split; [lia|try discriminate; reflexivity]|]). cbn in H. lia.
  - intros i H. unfold points_of_order. do 18 (destruct i as [|i]; [cbn; split; [lia|try discriminate; reflexivity]|]). cbn in H. lia.
Qed.
Print Assumptions C52_orders.

Local Open Scope nat_scope.
(** A list of irreps that does not reach the degrees of a rectangle (or whose counters do not): IndexError. *)
Theorem C53_missing_irreps : forall irreps idx la lb cg mult x0 rest top, irreps = x0 :: rest -> Nat.odd (rows x0) = true ->
  top = Nat.min (la + lb) (rows (last irreps x0) / 2) -> Nat.max (absdiff la lb) (rows x0 / 2) <= top ->
  (la + 1) * (la + 1) <= t1 cg -> (lb + 1) * (lb + 1) <= t2 cg -> (top + 1) * (top + 1) <= t3 cg ->
  length irreps <= top \/ length idx <= top ->
  make_rectangular_matrix irreps idx (2 * la + 1) (2 * lb + 1) cg mult = Err IndexError.
Proof.
  intros irreps idx la lb cg mult x0 rest top E OD ET LT C1 C2 C3 MI. unfold make_rectangular_matrix. rewrite E. rewrite <- E.
  assert (O : rows x0 mod 2 = 1) by (apply Nat.odd_spec in OD; destruct OD as [k ->]; rewrite Nat.add_comm, Nat.mul_comm, Nat.mod_add by lia; reflexivity).
  rewrite O. assert (A : forall k, (2 * k + 1) mod 2 = 1) by (intro k; rewrite Nat.add_comm, Nat.mul_comm, Nat.mod_add by lia; reflexivity). rewrite !A. cbn [Nat.eqb].
  assert (H : forall k, (2 * k + 1) / 2 = k) by (intro k; rewrite Nat.add_comm, Nat.mul_comm, Nat.div_add by lia; reflexivity). rewrite !H. cbv zeta. rewrite <- ET.
  set (lower := Nat.max (absdiff la lb) (rows x0 / 2)) in *. destruct (Nat.leb_spec (top + 1) lower); [lia|]. destruct (Nat.ltb_spec (t1 cg) ((la + 1) * (la + 1))); [lia|]. destruct (Nat.ltb_spec (t2 cg) ((lb + 1) * (lb + 1))); [lia|]. destruct (Nat.ltb_spec (t3 cg) ((top + 1) * (top + 1))); [lia|].
  assert (T : forall ls, In top ls -> take_irreps irreps idx (mult * mult) ls = Err IndexError).
  { induction ls as [|l ls IH]; intro I; [destruct I|]. cbn [take_irreps]. destruct I as [->|I].
    - destruct MI as [MI|MI]; apply nth_error_None in MI; rewrite MI; [reflexivity|]. destruct (nth_error irreps top); reflexivity.
    - rewrite (IH I). destruct (nth_error irreps l); [|reflexivity]. destruct (nth_error idx l); reflexivity. }
  rewrite T; [reflexivity|]. unfold nrange. apply in_seq. lia.
Qed.
Print Assumptions C53_missing_irreps.

(** One array with degree 1, without the one with degree 0 before it. *)
Example C53_missing_irreps_case : let x := mkMat 3 1 (fun _ _ => 1%R) in make_rectangular_matrix [x] [0] 3 3 (mkT3 4 4 4 (fun _ _ _ => 1%R)) 1 = Err IndexError.
Proof. intro x. apply (C53_missing_irreps [x] [0] 1 1 _ 1 x [] 1 eq_refl eq_refl eq_refl); cbn; lia. Qed.
