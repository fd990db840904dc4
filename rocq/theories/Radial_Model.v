(** Model of e3x/nn/functions/*.py and e3x/ops/helpers.py:inverse_softplus.

    All functions act elementwise on [x]; the model is for one entry.  [eps] stands for
    [finfo(dtype).eps] or [finfo(dtype).epsneg].  [jnp.where] evaluates both branches, but the
    discarded one has no effect, so it is an [if].  Arrays of [num] basis functions are lists. *)
Require Import List Reals ZArith Bool String.
Require Import Verif.Base.
Import ListNotations.
Open Scope R_scope.

Definition Rltb (a b : R) : bool := if Rlt_dec a b then true else false.
Definition Rleb (a b : R) : bool := if Rle_dec a b then true else false.
Definition Reqb (a b : R) : bool := if Req_EM_T a b then true else false.

(** * cutoff.py *)

(** [smooth_cutoff] (cutoff.py:29-79). *)
Definition smooth_cutoff (x cutoff : R) : result R :=
  if Rleb cutoff 0 then Err ValueError
  else
    let x := if negb (Reqb cutoff 1) then x / cutoff else x in
    let inside_cutoff := Rltb x 1 in
    let safe_x := if inside_cutoff then x else 0 in
    Ok (if inside_cutoff then exp (1 - 1 / (1 - safe_x * safe_x)) else 0).

(** [cosine_cutoff] (cutoff.py:81-128). *)
Definition cosine_cutoff (x cutoff : R) : result R :=
  if Rleb cutoff 0 then Err ValueError
  else
    let x := if negb (Reqb cutoff 1) then x / cutoff else x in
    Ok (if Rltb x 1 then 0.5 * cos (PI * x) + 0.5 else 0).

(** * switch.py *)

(** [_SMOOTH_SWITCH_SLOPE] (switch.py:32) and [_smooth_switch_exp] (35-37). *)
Definition smooth_switch_slope : R := sqrt 3 / 2.
Definition smooth_switch_exp (x : R) : R := exp (smooth_switch_slope * (1 / x - 1 / (1 - x))).

Definition rescale (x x0 x1 : R) : R :=
  if negb (Reqb x0 0) || negb (Reqb x1 1) then (x - x0) / (x1 - x0) else x.

(** [smooth_switch] (40-105). *)
Definition smooth_switch (eps x x0 x1 : R) : result R :=
  if Rleb x1 x0 then Err ValueError
  else
    let x := rescale x x0 x1 in
    let small := Rltb x eps in
    let large := Rltb (1 - eps) x in
    let safe_x := if small || large then 0.5 else x in
    Ok (if small then 0 else if large then 1 else 1 / (1 + smooth_switch_exp safe_x)).

(** [_smooth_switch_jvp_impl] (108-151): primal and tangent output.  The derivative rule does not
    check the boundaries (the primal function does). *)
Definition smooth_switch_jvp (eps x0 x1 x x_dot : R) : R * R :=
  let rescaled := negb (Reqb x0 0) || negb (Reqb x1 1) in
  let x := if rescaled then (x - x0) / (x1 - x0) else x in
  let x_dot := if rescaled then x_dot / (x1 - x0) else x_dot in
  let small := Rltb x eps in
  let large := Rltb (1 - eps) x in
  let small_or_large := small || large in
  let safe_x := if small_or_large then 0.5 else x in
  let exp_ := smooth_switch_exp safe_x in
  let primal_out := if small then 0 else if large then 1 else 1 / (1 + exp_) in
  let primal_out2 := primal_out * primal_out in
  let raw_tangent :=
    - smooth_switch_slope * (-1 / (safe_x ^ 2) - 1 / (1 - safe_x) ^ 2) * exp_ * primal_out2 in
  let zero_factors := Reqb primal_out2 0 || Reqb exp_ 0 in
  let mask := small_or_large || zero_factors in
  (primal_out, (if mask then 0 else raw_tangent) * x_dot).

(** * damping.py *)

(** [smooth_damping] (damping.py:29-70). *)
Definition smooth_damping (x gamma : R) : R :=
  let exp_ := exp (- gamma * x) in
  let div := 1 - exp_ in
  let mask := Rltb 0 (div * div) in
  if mask then exp (- exp_ / (if mask then div else 1)) else 0.

(** * mappings.py *)

(** [jnp.expm1]. *)
Definition expm1 (x : R) : R := exp x - 1.

(** [reciprocal_mapping] (mappings.py:32-98). *)
Definition reciprocal_mapping (eps x : R) (kind : string) : result R :=
  if String.eqb kind "shifted" then Ok (1 / (x + 1))
  else if String.eqb kind "damped" then
    let small := Rltb x eps in
    let safe_x := if small then 1 else x in
    Ok (if small then 1 - x / 2 + x * x / 6 else - expm1 (- safe_x) / safe_x)
  else if String.eqb kind "cuspless" then Ok (1 / (x + exp (- x)))
  else Err ValueError.

(** [exponential_mapping] (101-167). *)
Definition exponential_mapping (x gamma : R) (cuspless : bool) : R :=
  let x := if cuspless then x + exp (- x) - 1 else x in
  exp (- gamma * x).

(** * window.py *)

(** [jnp.linspace(0.0, limit, num=num+1)[k]]. *)
Definition linspace0 (limit : R) (num k : nat) : R := limit * INR k / INR num.

(** [rectangular_window] (window.py:27-80). *)
Definition rectangular_window (x : R) (num : nat) (limit : R) : list R :=
  map (fun k =>
         let lower := linspace0 limit num k in
         let upper := linspace0 limit num (k + 1) in
         if Rltb x lower then 0 else if Rltb upper x then 0 else 1) (seq 0 num).

(** [triangular_window] (83-131). *)
Definition triangular_window (x : R) (num : nat) (limit : R) : list R :=
  let width := limit / INR num in
  map (fun k =>
         let center := linspace0 limit num k in
         let lower := center - width in
         let upper := center + width in
         Rmax (Rmin ((x - lower) / width) (- (x - upper) / width)) 0) (seq 0 num).

(** [smooth_switch(t)] with the default boundaries, which are valid. *)
Definition smooth_switch01 (eps t : R) : R :=
  match smooth_switch eps t 0 1 with Ok v => v | Err _ => 0 end.

(** [smooth_window] (134-179). *)
Definition smooth_window (eps x : R) (num : nat) (limit : R) : list R :=
  map (fun k =>
         let center := linspace0 limit num k in
         let x_1 := INR num / limit * (x - center) in
         smooth_switch01 eps (x_1 + 1) - smooth_switch01 eps x_1) (seq 0 num).

(** * bernstein.py *)

(** [betaln(a, b)] for positive integers, by the Gamma function at integers. *)
Definition betaln (a b : nat) : R :=
  ln (INR (fact (a - 1)) * INR (fact (b - 1)) / INR (fact (a + b - 1))).

(** [binomln[v]] (51). *)
Definition binomln (n v : nat) : R := - betaln (1 + n - v) (1 + v) - ln (INR n + 1).

(** [jnp.log1p]. *)
Definition log1p (x : R) : R := ln (1 + x).

(** Entry [v] of [_bernstein] for num = n + 1 >= 2 (48-65). *)
Definition bernstein_entry (eps x : R) (n v : nat) : R :=
  let mask0 := Rltb x eps in
  let mask1 := Rltb (1 - eps) x in
  let mask := mask0 || mask1 in
  let safe_x := if mask then 0.5 else x in
  let y := if mask then 0
           else exp (binomln n v + INR v * ln safe_x + INR (n - v) * log1p (- safe_x)) in
  let y := if mask0 && (v =? 0)%nat then 1 else y in
  if mask1 && (v =? n)%nat then 1 else y.

(** [_bernstein] (28-65). *)
Definition bernstein (eps x : R) (num : Z) : result (list R) :=
  if (num <? 1)%Z then Err ValueError
  else if (num =? 1)%Z then Ok [1]
  else
    let n := Z.to_nat (num - 1) in
    Ok (map (bernstein_entry eps x n) (seq 0 (n + 1))).

(** [jnp.roll(l, shift=1, axis=-1)]. *)
Definition roll1 (l : list R) : list R :=
  match rev l with [] => [] | a :: t => a :: rev t end.

(** [_bernstein_jvp_impl] (68-85): primal and tangent output. *)
Definition bernstein_jvp (eps : R) (num : Z) (x x_dot : R) : result (list R * list R) :=
  bind (bernstein eps x num) (fun primal_out =>
    if (1 <? num)%Z then
      bind (bernstein eps x (num - 1)) (fun lower0 =>
        let lower := lower0 ++ [0] in                         (* 79 *)
        let shift := roll1 lower in                           (* 80 *)
        let shift := match shift with [] => [] | _ :: t => 0 :: t end in   (* 81 *)
        Ok (primal_out, map (fun p => x_dot * IZR (num - 1) * (fst p - snd p)) (combine shift lower)))
    else Ok (primal_out, [0 * x_dot])).

(** [basic_bernstein] (88-132). *)
Definition basic_bernstein (eps x : R) (num : Z) (limit : R) : result (list R) :=
  bernstein eps (x / limit) num.

(** Weighting of a basis by the value of the mapping. *)
Definition weighted (use_weighting : bool) (mapping : R) (basis : list R) : list R :=
  if use_weighting then map (fun y => y * mapping) basis else basis.

(** [reciprocal_bernstein] (135-269). *)
Definition reciprocal_bernstein (eps x : R) (num : Z) (kind : string) (weighting : bool) : result (list R) :=
  bind (reciprocal_mapping eps x kind) (fun mapping =>
    rmap (weighted weighting mapping) (bernstein eps (1 - mapping) num)).

(** [exponential_bernstein] (272-380). *)
Definition exponential_bernstein (eps x : R) (num : Z) (gamma : R) (cuspless weighting : bool) : result (list R) :=
  let mapping := exponential_mapping x gamma cuspless in
  rmap (weighted weighting mapping) (bernstein eps (1 - mapping) num).

(** * chebyshev.py *)

(** Entry [n] of [_chebyshev] for num >= 2 (47-64). *)
Definition chebyshev_entry (eps x : R) (n : nat) : R :=
  let n2 := INR n * INR n in
  let one_minus_eps := 1 - eps in
  let small := Rltb x (- one_minus_eps) in
  let large := Rltb one_minus_eps x in
  let safe_x := if small || large then 0 else x in
  let xm1 := x - 1 in
  let xp1 := x + 1 in
  let limit_small := (-1) ^ n * (1 - n2 * xp1 + 1 / 6 * n2 * (n2 - 1) * xp1 * xp1) in
  let limit_large := 1 + n2 * xm1 + 1 / 6 * n2 * (n2 - 1) * xm1 * xm1 in
  if small then limit_small else if large then limit_large else cos (INR n * acos safe_x).

(** [_chebyshev] (27-64). *)
Definition chebyshev (eps x : R) (num : Z) : result (list R) :=
  if (num <? 1)%Z then Err ValueError
  else if (num =? 1)%Z then Ok [1]
  else Ok (map (chebyshev_entry eps x) (seq 0 (Z.to_nat num))).

(** [jnp.sign]. *)
Definition rsign (x : R) : R := if Rlt_dec x 0 then -1 else if Req_EM_T x 0 then 0 else 1.

(** [basic_chebyshev] (67-123). *)
Definition basic_chebyshev (eps x : R) (num : Z) (limit : R) : result (list R) :=
  let x := 2 * x / limit - 1 in
  bind (chebyshev eps x num) (fun inside =>
    Ok (if Rleb (Rabs x) 1 then inside else map (fun n => rsign x ^ n) (seq 0 (Z.to_nat num)))).

(** [reciprocal_chebyshev] (126-248) and [exponential_chebyshev] (251-359). *)
Definition reciprocal_chebyshev (eps x : R) (num : Z) (kind : string) (weighting : bool) : result (list R) :=
  bind (reciprocal_mapping eps x kind) (fun mapping =>
    rmap (weighted weighting mapping) (chebyshev eps (2 * mapping - 1) num)).
Definition exponential_chebyshev (eps x : R) (num : Z) (gamma : R) (cuspless weighting : bool) : result (list R) :=
  let mapping := exponential_mapping x gamma cuspless in
  rmap (weighted weighting mapping) (chebyshev eps (2 * mapping - 1) num).

(** * gaussian.py *)

(** [_gaussian] (gaussian.py:27-35); [jnp.linspace(0, 1, 1)] is [0]. *)
Definition gaussian (x : R) (num : Z) : result (list R) :=
  if (num <? 1)%Z then Err ValueError
  else
    let gamma := sqrt (2 * IZR num) * (IZR num - 1) in
    Ok (map (fun k =>
               let mu := if (num =? 1)%Z then 0 else INR k / (IZR num - 1) in
               exp (- gamma * (x - mu) ^ 2)) (seq 0 (Z.to_nat num))).

(** [basic_gaussian] (38-80), [reciprocal_gaussian] (83-212), [exponential_gaussian] (215-324). *)
Definition basic_gaussian (x : R) (num : Z) (limit : R) : result (list R) := gaussian (x / limit) num.
Definition reciprocal_gaussian (eps x : R) (num : Z) (kind : string) (weighting : bool) : result (list R) :=
  bind (reciprocal_mapping eps x kind) (fun mapping =>
    rmap (weighted weighting mapping) (gaussian (1 - mapping) num)).
Definition exponential_gaussian (x : R) (num : Z) (gamma : R) (cuspless weighting : bool) : result (list R) :=
  let mapping := exponential_mapping x gamma cuspless in
  rmap (weighted weighting mapping) (gaussian (1 - mapping) num).

(** * trigonometric.py *)

(** [jnp.sinc]. *)
Definition sinc1 (t : R) : R := if Req_EM_T t 0 then 1 else sin (PI * t) / (PI * t).

(** [sinc] (trigonometric.py:28-73).  A negative [num] gives an empty array. *)
Definition sinc (x : R) (num : Z) (limit : R) : list R :=
  let x := x / limit in
  map (fun k => if Rleb x 1 then sinc1 (INR k * x) else 0) (seq 1 (Z.to_nat num)).

(** [_fourier] (76-95). *)
Definition fourier (x : R) (num : Z) : result (list R) :=
  if (num <? 1)%Z then Err ValueError
  else Ok (map (fun k => cos (PI * INR k * x)) (seq 0 (Z.to_nat num))).

(** [basic_fourier] (98-140), [reciprocal_fourier] (143-265), [exponential_fourier] (268-376). *)
Definition basic_fourier (x : R) (num : Z) (limit : R) : result (list R) := fourier (x / limit) num.
Definition reciprocal_fourier (eps x : R) (num : Z) (kind : string) (weighting : bool) : result (list R) :=
  bind (reciprocal_mapping eps x kind) (fun mapping =>
    rmap (weighted weighting mapping) (fourier (1 - mapping) num)).
Definition exponential_fourier (x : R) (num : Z) (gamma : R) (cuspless weighting : bool) : result (list R) :=
  let mapping := exponential_mapping x gamma cuspless in
  rmap (weighted weighting mapping) (fourier (1 - mapping) num).

(** * ops/helpers.py *)

(** [inverse_softplus] (helpers.py:27-29). *)
Definition inverse_softplus (x : R) : R := x + ln (- expm1 (- x)).
