(** Model of e3x/so3/quadrature.py.  Integers are unbounded; the content of a grid file is an
    argument; the two tables shipped with the package are included as literals. *)
Require Import List ZArith Bool.
Require Import Verif.Base.
Import ListNotations.
Open Scope Z_scope.

Inductive kind : Type := Lebedev | Delley | OtherKind.

(** Content of a grid file: arrays [precision] and [num], and for every i the pair of arrays r{i},
    w{i} if both exist. *)
Record archive (G : Type) : Type := mkArchive { a_precision : list Z; a_num : list Z; a_grid : nat -> option G }.
Arguments a_precision {G}. Arguments a_num {G}. Arguments a_grid {G}. Arguments mkArchive {G}.

(** [np.max], [np.min]: raise on empty arrays. *)
Definition np_max (l : list Z) : result Z := match l with [] => Err ValueError | a :: t => Ok (fold_left Z.max t a) end.
Definition np_min (l : list Z) : result Z := match l with [] => Err ValueError | a :: t => Ok (fold_left Z.min t a) end.

(** [np.nanargmin]: first index of the smallest entry that is not NaN ([None]). *)
Fixpoint nanargmin_from (i : nat) (best : option (nat * Z)) (l : list (option Z)) : option (nat * Z) :=
  match l with
  | [] => best
  | None :: t => nanargmin_from (S i) best t
  | Some x :: t =>
      nanargmin_from (S i) (match best with Some (j, y) => if x <? y then Some (i, x) else best | None => Some (i, x) end) t
  end.

Definition nanargmin (l : list (option Z)) : result nat :=
  match nanargmin_from 0 None l with Some (i, _) => Ok i | None => Err ValueError end.

(** [np.where(d < 0, np.nan, d)] *)
Definition nan_if_negative (d : Z) : option Z := if d <? 0 then None else Some d.

(** The body of the [try] block (49-86); the boolean says whether a warning was logged. *)
Definition select {G : Type} (file : result (archive G)) (precision num : option Z) : result (G * bool) :=
  bind file (fun q =>
  bind (match precision with
        | Some p =>
            bind (np_max (a_precision q)) (fun m =>
            if m <? p then Ok ((length (a_precision q) - 1)%nat, true)
            else rmap (fun i => (i, false)) (nanargmin (map (fun a => nan_if_negative (a - Z.max p 0)) (a_precision q))))
        | None =>
            match num with
            | Some n =>
                bind (np_min (a_num q)) (fun m =>
                if n <? m then Ok (0%nat, true)
                else rmap (fun i => (i, false)) (nanargmin (map (fun a => nan_if_negative (Z.max n 0 - a)) (a_num q))))
            | None => Err TypeError
            end
        end) (fun s => let '(i, warned) := s in
  match a_grid q i with Some g => Ok (g, warned) | None => Err KeyError end)).

(** The exceptions in the [except] clause (87). *)
Definition caught (e : err) : bool :=
  match e with BadZipFile | OSError | KeyError | ValueError => true | _ => false end.

(** [_load_grid] (30-92). *)
Definition load_grid {G : Type} (files : kind -> result (archive G)) (k : kind) (precision num : option Z) : result (G * bool) :=
  match k with
  | OtherKind => Err ValueError
  | _ =>
      match precision, num with
      | None, None | Some _, Some _ => Err ValueError
      | _, _ =>
          match select (files k) precision num with
          | Err e => if caught e then Err RuntimeError else Err e
          | r => r
          end
      end
  end.

(** [lebedev_quadrature] (95-134), [delley_quadrature] (137-176). *)
Definition lebedev_quadrature {G : Type} (files : kind -> result (archive G)) (precision num : option Z) := load_grid files Lebedev precision num.
Definition delley_quadrature {G : Type} (files : kind -> result (archive G)) (precision num : option Z) := load_grid files Delley precision num.

(** The tables in e3x/so3/_lebedev_grids.npz and e3x/so3/_delley_grids.npz; every file contains the
    grids r{i}, w{i} for i below the length of the tables, with num[i] points. *)
Definition lebedev_precision : list Z :=
  [3; 5; 7; 9; 11; 13; 15; 17; 19; 21; 23; 25; 27; 29; 31; 35; 41; 47; 53; 59; 65; 71; 77; 83; 89; 95; 101; 107; 113; 119; 125; 131].
Definition lebedev_num : list Z :=
  [6; 14; 26; 38; 50; 74; 86; 110; 146; 170; 194; 230; 266; 302; 350; 434; 590; 770; 974; 1202; 1454; 1730; 2030; 2354; 2702; 3074; 3470; 3890; 4334; 4802; 5294; 5810].
Definition delley_precision : list Z := [5; 7; 11; 17; 23; 29; 35; 41; 47; 53; 59; 65; 71; 77; 83; 89; 95; 101].
Definition delley_num : list Z := [14; 26; 50; 110; 194; 302; 434; 590; 770; 974; 1202; 1454; 1730; 2030; 2354; 2702; 3074; 3470].
