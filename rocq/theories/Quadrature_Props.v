(** Property C52: selection of quadrature grids. *)
Require Import List ZArith Bool Lia.
Require Import Verif.Base Verif.Quadrature_Model Verif.Quadrature_Spec Verif.Quadrature_Proofs.
Import ListNotations.
Open Scope Z_scope.

(** With a precision: the smallest grid that has at least this precision; if there is none, the
    most precise grid with a warning. *)
Theorem C52_precision : forall (G : Type) (files : kind -> result (archive G)) k q p,
  k = Lebedev \/ k = Delley -> files k = Ok q -> usable q ->
  exists g w P n, load_grid files k (Some p) None = Ok (g, w) /\ has_grid q P n g
  /\ (w = false /\ p <= P /\ (forall P' n', has_size q P' n' -> p <= P' -> n <= n')
      \/ w = true /\ (forall P' n', has_size q P' n' -> P' < p /\ P' <= P)).
Proof.
  intros G files k q p Hk Hf U. destruct (select_precision q U p) as [i [g [w [E [Hi [Eg H]]]]]].
  exists g, w, (nth i (a_precision q) 0), (nth i (a_num q) 0). split.
  - unfold load_grid. destruct Hk as [-> | ->]; rewrite Hf, E; reflexivity.
  - split; [exists i; auto|]. destruct H as [[-> [H1 H2]]|[-> [H1 H2]]]; [left|right].
    + split; [reflexivity|]. split; [exact H1|]. intros P' n' [j [Hj [<- <-]]]. apply H2. exact Hj.
    + split; [reflexivity|]. intros P' n' [j [Hj [<- <-]]]. split; [apply H1|apply H2]; exact Hj.
Qed.
Print Assumptions C52_precision.

(** With a number of points: the most precise grid with at most this number of points; if there is
    none, the smallest grid with a warning. *)
Theorem C52_num : forall (G : Type) (files : kind -> result (archive G)) k q num,
  k = Lebedev \/ k = Delley -> files k = Ok q -> usable q ->
  exists g w P n, load_grid files k None (Some num) = Ok (g, w) /\ has_grid q P n g
  /\ (w = false /\ n <= num /\ (forall P' n', has_size q P' n' -> n' <= num -> P' <= P)
      \/ w = true /\ (forall P' n', has_size q P' n' -> num < n' /\ n <= n')).
Proof.
  intros G files k q num Hk Hf U. destruct (select_num q U num) as [i [g [w [E [Hi [Eg H]]]]]].
  exists g, w, (nth i (a_precision q) 0), (nth i (a_num q) 0). split.
  - unfold load_grid. destruct Hk as [-> | ->]; rewrite Hf, E; reflexivity.
  - split; [exists i; auto|]. destruct H as [[-> [H1 H2]]|[-> [H1 H2]]]; [left|right].
    + split; [reflexivity|]. split; [exact H1|]. intros P' n' [j [Hj [<- <-]]]. apply H2. exact Hj.
    + split; [reflexivity|]. intros P' n' [j [Hj [<- <-]]]. split; [apply H1|apply H2]; exact Hj.
Qed.
Print Assumptions C52_num.

(** Exactly one of the two arguments must be given; unknown kinds are rejected; failures to read
    the file are reported as RuntimeError, except the kinds the code does not catch. *)
Theorem C52_errors : forall (G : Type) (files : kind -> result (archive G)) k p n,
  load_grid files OtherKind p n = Err ValueError
  /\ load_grid files k None None = Err ValueError
  /\ (p <> None -> n <> None -> load_grid files k p n = Err ValueError)
  /\ (forall e, k = Lebedev \/ k = Delley -> (p = None <-> n <> None) -> files k = Err e ->
        load_grid files k p n = Err (match e with BadZipFile | OSError | KeyError | ValueError => RuntimeError | _ => e end)).
Proof.
  intros G files k p n. split; [reflexivity|]. split; [destruct k; reflexivity|]. split.
  - intros Hp Hn. destruct p; [|congruence]. destruct n; [|congruence]. destruct k; reflexivity.
  - intros e Hk Hpn Hf. unfold load_grid.
    destruct p as [p|], n as [n|].
    + exfalso. assert (Some p = None) by (apply Hpn; discriminate). discriminate.
    + destruct Hk as [-> | ->]; rewrite Hf; destruct e; reflexivity.
    + destruct Hk as [-> | ->]; rewrite Hf; destruct e; reflexivity.
    + exfalso. apply (proj1 Hpn eq_refl). reflexivity.
Qed.
Print Assumptions C52_errors.

(** The two public functions choose the file of their kind. *)
Theorem C52_kinds : forall (G : Type) (files files' : kind -> result (archive G)) p n,
  (files Lebedev = files' Lebedev -> lebedev_quadrature files p n = lebedev_quadrature files' p n)
  /\ (files Delley = files' Delley -> delley_quadrature files p n = delley_quadrature files' p n).
Proof.
  intros G files files' p n. split; intros H; unfold lebedev_quadrature, delley_quadrature, load_grid; rewrite H; reflexivity.
Qed.
Print Assumptions C52_kinds.

(** The shipped tables are usable; a grid is represented by its number of points. *)
Definition shipped (k : kind) : result (archive Z) :=
  match k with
  | Lebedev => Ok (mkArchive lebedev_precision lebedev_num (fun i => nth_error lebedev_num i))
  | Delley => Ok (mkArchive delley_precision delley_num (fun i => nth_error delley_num i))
  | OtherKind => Err OSError
  end.

Fixpoint increasing (l : list Z) : bool :=
  match l with a :: ((b :: _) as t) => (a <? b) && increasing t | _ => true end.

Lemma increasing_nth : forall l, increasing l = true -> forall i j, (i < j < length l)%nat -> nth i l 0 < nth j l 0.
Proof.
  induction l as [|a l IH]; intros H i j Hij; [cbn in Hij; lia|].
  destruct l as [|b t]; [cbn in Hij; lia|]. cbn [increasing] in H. apply andb_prop in H. destruct H as [Hab Ht]. apply Z.ltb_lt in Hab.
  specialize (IH Ht). destruct j as [|j]; [lia|]. cbn [length] in Hij. destruct i as [|i].
  - cbn [nth]. destruct j as [|j]; [exact Hab|]. pose proof (IH 0%nat (S j) ltac:(cbn [length]; lia)) as H. change (nth 0 (b :: t) 0) with b in H.
    change (nth (S j) (b :: t) 0) with (nth j t 0) in *. cbn [nth] in *. lia.
  - apply (IH i j). cbn [length]. lia.
Qed.

Theorem C52_shipped_tables : forall k q, shipped k = Ok q -> usable q.
Proof.
  assert (G : forall P N, P <> [] -> length N = length P -> increasing P = true -> increasing N = true -> 0 <= nth 0 P 0 -> 0 <= nth 0 N 0 ->
    usable (mkArchive P N (fun i => nth_error N i))).
  { intros P N HP HL IP IN P0 N0. split; [exact HP|]. split; [exact HL|]. cbn [a_precision a_num a_grid].
    pose proof (increasing_nth P IP) as MP. pose proof (increasing_nth N IN) as MN. split.
    - intros i Hi. split; [|split].
      + destruct i; [exact P0|]. specialize (MP 0%nat (S i) ltac:(lia)). lia.
      + destruct i; [exact N0|]. specialize (MN 0%nat (S i) ltac:(lia)). lia.
      + exists (nth i N 0). apply nth_error_nth'. lia.
    - intros i j Hij. split; [apply MP; lia|apply MN; lia]. }
  intros [| |] q [= <-]; apply G; try discriminate; reflexivity || (cbn; lia).
Qed.
Print Assumptions C52_shipped_tables.

(** Consequence for the shipped Lebedev grids, for every request. *)
Theorem C52_lebedev_shipped : forall p, exists n, load_grid shipped Lebedev (Some p) None = Ok (n, 131 <? p).
Proof.
  intros p. destruct (C52_precision Z shipped Lebedev _ p (or_introl eq_refl) eq_refl (C52_shipped_tables Lebedev _ eq_refl)) as [g [w [P [n [E [HG H]]]]]].
  exists g. rewrite E. f_equal. f_equal.
  assert (S : has_size (mkArchive lebedev_precision lebedev_num (fun i => nth_error lebedev_num i)) 131 5810) by (exists 31%nat; cbn; repeat split; lia).
  destruct H as [[-> [H1 _]]|[-> H]].
  - destruct HG as [i [Hi [_ [<- _]]]]. symmetry. apply Z.ltb_ge.
    pose proof (increasing_nth lebedev_precision eq_refl i 31%nat) as M. cbn [a_precision] in *. change (length lebedev_precision) with 32%nat in *.
    change (nth 31 lebedev_precision 0) with 131 in M. destruct (Nat.eq_dec i 31) as [->|]; [change (nth 31 lebedev_precision 0) with 131 in H1; lia|]. specialize (M ltac:(lia)). lia.
  - symmetry. apply Z.ltb_lt. apply (H _ _ S).
Qed.
Print Assumptions C52_lebedev_shipped.

Example C52_case : load_grid shipped Lebedev (Some 33) None = Ok (434, false) /\ load_grid shipped Delley None (Some 100) = Ok (50, false)
  /\ load_grid shipped Delley (Some 200) None = Ok (3470, true) /\ load_grid shipped Lebedev None (Some (-1)) = Ok (6, true).
Proof. repeat split; reflexivity. Qed.
