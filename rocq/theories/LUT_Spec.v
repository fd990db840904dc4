(** Specification vocabulary for the lookup-table caches (C15-C20). *)
Require Import String List ZArith Bool Permutation.
Require Import Verif.Base Verif.LUT_Model.
Import ListNotations.

(** A process pool runs every task exactly once, in any order. *)
Definition valid_schedule (s : schedule) : Prop :=
  match s with None => True | Some order => forall n, Permutation (order n) (seq 0 n) end.

(** No cache path, no files, no table shipped with the package. *)
Definition empty_world {C : Type} : world C := mkWorld None (fun _ => None) (Err OSError).

(** A computation that finds nothing cached and uses one process. *)
Definition cold_result {C T : Type} (generate : world C -> Z -> schedule -> io -> world C * result T) (L : Z) : result T :=
  snd (generate empty_world L None IoOk).

(** Fresh installation: no user cache; the package ships no table or an unreadable one (reading it
    raises OSError, BadZipFile, KeyError or ValueError), or one computed cold and saved. *)
Definition fresh_install {C T : Type} (generate : world C -> Z -> schedule -> io -> world C * result T)
    (compress : T -> C) (w : world C) : Prop :=
  (forall p, files w p = None) /\
  ((exists e, package_data w = Err e /\ In e [OSError; BadZipFile; KeyError; ValueError]) \/
   exists L t, cold_result generate L = Ok t /\ package_data w = Ok (compress t)).

(** Histories in which no save is interrupted half way (failing to open the file is allowed). *)
Definition uninterrupted (e : event schedule) : Prop :=
  match e with
  | Request _ s o => valid_schedule s /\ (o = IoOk \/ o = IoOpenFails)
  | SetPath _ => True
  end.

(** Histories with arbitrary failures. *)
Definition any_failure (e : event schedule) : Prop :=
  match e with Request _ s _ => valid_schedule s | SetPath _ => True end.

(** Reply to an event: the same as the cold computation gives ([same L] compares tables of degree L). *)
Definition as_cold {T : Type} (same : nat -> T -> T -> Prop) (cold : Z -> result T)
    (e : event schedule) (r : option (result T)) : Prop :=
  match e, r with
  | SetPath _, None => True
  | Request L _ _, Some (Ok t) => exists t0, (0 <= L)%Z /\ cold L = Ok t0 /\ same (Z.to_nat L) t0 t
  | Request L _ _, Some (Err e) => (L < 0)%Z /\ e = ValueError /\ cold L = Err ValueError
  | _, _ => False
  end.

(** Maximum degree stored in the file at a path. *)
Definition stored_degree {C : Type} (degree : C -> Z) (w : world C) (p : string) : option Z :=
  match files w p with Some (Saved c) => Some (degree c) | _ => None end.

(** Quantum numbers for which a coefficient is computed: triangle inequality and m3 = +-m1 +-m2. *)
Definition selected (l1 : nat) (m1 : Z) (l2 : nat) (m2 : Z) (l3 : nat) (m3 : Z) : Prop :=
  (l1 <= l2 + l3 /\ l2 <= l1 + l3 /\ l3 <= l1 + l2) /\
  (m3 = m1 + m2 \/ m3 = m1 - m2 \/ m3 = m2 - m1 \/ m3 = - m1 - m2)%Z.

(** Equality of tables on all valid indices. *)
Definition same_cg (A : Type) (L : nat) (t t' : cg_table A) : Prop :=
  cg_max A t = L /\ cg_max A t' = L /\
  forall i j k, i < (L + 1) * (L + 1) -> j < (L + 1) * (L + 1) -> k < (L + 1) * (L + 1) ->
    cg_at A t (i, j, k) = cg_at A t' (i, j, k).

Definition same_sh (A : Type) (L : nat) (t t' : sh_table A) : Prop :=
  sh_max A t = L /\ sh_max A t' = L /\
  (forall i j, i < num_car L -> j < num_sph L -> sh_cm A t (i, j) = sh_cm A t' (i, j)) /\
  (forall i, i < num_car L -> sh_ls A t i = sh_ls A t' i).

Definition same_wd (A : Type) (L : nat) (t t' : wd_table A) : Prop :=
  wd_max A t = L /\ wd_max A t' = L /\
  (forall i j, i < num_rot L -> j < num_wig L -> wd_cm A t (i, j) = wd_cm A t' (i, j)) /\
  (forall i, i < num_rot L -> wd_ls A t i = wd_ls A t' i).

Definition same_tc (M : Type) (L : nat) (t t' : tc_table M) : Prop :=
  tc_max M t = L /\ tc_max M t' = L /\ tc_s2t M t = tc_s2t M t' /\ tc_t2s M t = tc_t2s M t'
  /\ length (tc_s2t M t) = L + 1 /\ length (tc_t2s M t) = L + 1.

(** Coefficient of a monomial in a polynomial given by its list of terms. *)
Fixpoint coefficient {A : Type} (zero : A) (terms : list (list nat * A)) (p : list nat) : A :=
  match terms with
  | [] => zero
  | (q, v) :: t => if list_eq_dec Nat.eq_dec q p then v else coefficient zero t p
  end.

(** Column of entry (mrot, msph) of the degree-l block of the Wigner-D table: blocks of
    1, 9, 25, ... columns, each in row-major order. *)
Definition wigner_column (l : nat) (mrot msph : Z) : nat :=
  list_sum (map (fun k => (2 * k + 1) * (2 * k + 1)) (seq 0 l))
  + Z.to_nat (mrot + Z.of_nat l) * (2 * l + 1) + Z.to_nat (msph + Z.of_nat l).
