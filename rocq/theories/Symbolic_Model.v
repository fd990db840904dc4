(** Model of e3x/so3/_symbolic.py: real spherical harmonics, rotated polynomials and the polynomial
    dot product.

    Simplifications: sympy expressions are modelled as lists of terms (coefficient, monomial) with
    exact real coefficients; [sp.simplify] is the identity.  A list may mention a monomial more than
    once; [as_dict] and [terms] (sympy's [Poly.as_dict] and [Poly.terms]) collect equal monomials and
    drop those with coefficient zero.  The order of the terms is not modelled. *)
Require Import List Reals ZArith Bool Arith.
Require Import Verif.Base Verif.Common_Model.
Import ListNotations.
Open Scope R_scope.

(** * Polynomials with coefficients in K *)
Section Terms.
Variables K Key : Type.
Variable kmul : K -> K -> K.
Variable key_mul : Key -> Key -> Key.

Definition padd (p q : list (K * Key)) : list (K * Key) := p ++ q.
Definition pscal (c : K) (p : list (K * Key)) : list (K * Key) := map (fun t => (kmul c (fst t), snd t)) p.
Definition pmul (p q : list (K * Key)) : list (K * Key) :=
  flat_map (fun t => map (fun u => (kmul (fst t) (fst u), key_mul (snd t) (snd u))) q) p.

Variable one : list (K * Key).
Fixpoint ppow (p : list (K * Key)) (n : nat) : list (K * Key) :=
  match n with O => one | S n => pmul p (ppow p n) end.

(** [Poly.as_dict()]: the sum of the coefficients of every monomial that occurs, without zeros. *)
Variable key_eq : forall a b : Key, {a = b} + {a <> b}.
Variable ksum : list K -> K.
Variable kzero : K -> bool.

Definition pcoef (p : list (K * Key)) (k : Key) : K :=
  ksum (map fst (filter (fun t => if key_eq (snd t) k then true else false) p)).

Definition as_dict (p : list (K * Key)) : list (K * Key) :=
  filter (fun t => negb (kzero (fst t))) (map (fun k => (pcoef p k, k)) (nodup key_eq (map snd p))).
End Terms.
Arguments padd {K Key}.
Arguments pscal {K Key}.
Arguments pmul {K Key}.
Arguments ppow {K Key}.
Arguments pcoef {K Key}.
Arguments as_dict {K Key}.

Definition rsum_list (l : list R) : R := fold_right Rplus 0 l.
Definition rzero (c : R) : bool := if Req_EM_T c 0 then true else false.

(** * Polynomials in x, y, z *)

(** x^a y^b z^c *)
Definition key3 : Type := (nat * nat * nat)%type.
Definition key3_mul (k1 k2 : key3) : key3 :=
  let '(a, b, c) := k1 in let '(a', b', c') := k2 in (a + a', b + b', c + c')%nat.
Definition key3_eq : forall a b : key3, {a = b} + {a <> b}.
Proof. repeat decide equality. Defined.
Definition key3_deg (k : key3) : nat := let '(a, b, c) := k in (a + b + c)%nat.

Definition poly3 : Type := list (R * key3).
Definition p3_const (c : R) : poly3 := [(c, (0, 0, 0)%nat)].
Definition p3_x : poly3 := [(1, (1, 0, 0)%nat)].
Definition p3_y : poly3 := [(1, (0, 1, 0)%nat)].
Definition p3_z : poly3 := [(1, (0, 0, 1)%nat)].
Definition p3_add : poly3 -> poly3 -> poly3 := padd.
Definition p3_mul : poly3 -> poly3 -> poly3 := pmul Rmult key3_mul.
Definition p3_scal : R -> poly3 -> poly3 := pscal Rmult.
Definition p3_pow : poly3 -> nat -> poly3 := ppow Rmult key3_mul (p3_const 1).
Definition p3_coef : poly3 -> key3 -> R := pcoef key3_eq rsum_list.

(** [for k in range(n): acc += f(k)] *)
Definition p3_sum (n : nat) (f : nat -> poly3) : poly3 := flat_map f (seq 0 n).

(** * [_spherical_harmonics] (23-77) *)

(** [a] (41-45) *)
Definition sh_a (m : nat) : poly3 :=
  p3_sum (m + 1) (fun p =>
    p3_scal (INR (comb m p) * cos (INR (m - p) * PI / 2)) (p3_mul (p3_pow p3_x p) (p3_pow p3_y (m - p)))).

(** [b] (47-51) *)
Definition sh_b (m : nat) : poly3 :=
  p3_sum (m + 1) (fun p =>
    p3_scal (INR (comb m p) * sin (INR (m - p) * PI / 2)) (p3_mul (p3_pow p3_x p) (p3_pow p3_y (m - p)))).

(** [r2] (55) *)
Definition sh_r2 : poly3 := p3_add (p3_add (p3_pow p3_x 2) (p3_pow p3_y 2)) (p3_pow p3_z 2).

(** The coefficient in the loop (58-63).  [sp.factorial] and [sp.binomial] of natural numbers. *)
Definition sh_coefficient (l m k : nat) : R :=
  (-1) ^ k * / 2 ^ l * INR (comb l k) * INR (comb (2 * l - 2 * k) l) * INR (fact (l - 2 * k))
  / INR (fact (l - 2 * k - m)).

(** [pi] (53-67), for m <= l (the only calls are those with |m| <= l). *)
Definition sh_pi (l m : nat) : poly3 :=
  p3_scal (sqrt (INR (fact (l - m)) / INR (fact (l + m))))
    (p3_sum ((l - m) / 2 + 1) (fun k =>
       p3_scal (sh_coefficient l m k) (p3_mul (p3_pow p3_z (l - 2 * k - m)) (p3_pow sh_r2 k)))).

(** (69-77) *)
Definition spherical_harmonics_poly (l : nat) (m : Z) : poly3 :=
  if (0 <? m)%Z then p3_scal (sqrt 2) (p3_mul (sh_pi l (Z.to_nat m)) (sh_a (Z.to_nat m)))
  else if (m <? 0)%Z then p3_scal (sqrt 2) (p3_mul (sh_pi l (Z.to_nat (- m))) (sh_b (Z.to_nat (- m))))
  else sh_pi l 0.

(** * Polynomials in the nine entries of a rotation matrix *)

Definition key9 : Type := list nat.
Definition key9_mul (k1 k2 : key9) : key9 := map (fun q => (fst q + snd q)%nat) (combine k1 k2).
Definition key9_one : key9 := repeat 0%nat 9.
Definition key9_eq : forall a b : key9, {a = b} + {a <> b} := list_eq_dec Nat.eq_dec.

Definition poly9 : Type := list (R * key9).
Definition p9_const (c : R) : poly9 := [(c, key9_one)].
(** The symbol r_ij (152-154) *)
Definition p9_var (i j : nat) : poly9 := [(1, map (fun n => if n =? 3 * i + j then 1 else 0)%nat (seq 0 9))].
Definition p9_mul : poly9 -> poly9 -> poly9 := pmul Rmult key9_mul.
Definition p9_scal : R -> poly9 -> poly9 := pscal Rmult.
Definition p9_sum (ps : list poly9) : poly9 := concat ps.
Definition p9_as_dict : poly9 -> list (R * key9) := as_dict key9_eq rsum_list rzero.
Definition p9_zero (p : poly9) : bool := match p9_as_dict p with [] => true | _ => false end.

(** * Polynomials in x, y, z whose coefficients are polynomials in the entries of the matrix *)

Definition poly39 : Type := list (poly9 * key3).
Definition p39_mul : poly39 -> poly39 -> poly39 := pmul p9_mul key3_mul.
Definition p39_scal : poly9 -> poly39 -> poly39 := pscal p9_mul.
Definition p39_pow : poly39 -> nat -> poly39 := ppow p9_mul key3_mul [(p9_const 1, (0, 0, 0)%nat)].
Definition p39_coef : poly39 -> key3 -> poly9 := pcoef key3_eq p9_sum.
Definition p39_as_dict : poly39 -> list (poly9 * key3) := as_dict key3_eq p9_sum p9_zero.

(** A polynomial in x, y, z, seen as one with constant coefficients. *)
Definition p39_of (p : poly3) : poly39 := map (fun t => (p9_const (fst t), snd t)) p.

(** [xs], [ys], [zs] (156-158): row i of the matrix times (x, y, z). *)
Definition rotated_coordinate (i : nat) : poly39 :=
  [(p9_var i 0, (1, 0, 0)%nat); (p9_var i 1, (0, 1, 0)%nat); (p9_var i 2, (0, 0, 1)%nat)].

(** [_rotate_xyz_polynomial] (132-163): the two substitutions together replace x, y, z at once. *)
Definition rotate_xyz_polynomial (p : poly39) : poly39 :=
  flat_map (fun t =>
    let '(a, b, c) := snd t in
    p39_scal (fst t) (p39_mul (p39_pow (rotated_coordinate 0) a)
                     (p39_mul (p39_pow (rotated_coordinate 1) b) (p39_pow (rotated_coordinate 2) c)))) p.

(** [Poly.total_degree()]: the largest degree of a monomial with a nonzero coefficient, 0 for the
    zero polynomial. *)
Definition total_degree (p : poly39) : nat := list_max (map (fun t => key3_deg (snd t)) (p39_as_dict p)).

(** [trinomial_coefficient] (186-189) *)
Definition trinomial_coefficient (k : key3) : R :=
  let '(a, b, c) := k in INR (fact (a + b + c)) / (INR (fact a) * INR (fact b) * INR (fact c)).

(** [_polynomial_dot_product] (166-204).  [None]: the number [sp.S(0)], which is not a polynomial. *)
Definition polynomial_dot_product (p1 p2 : poly39) : option poly9 :=
  let degree := total_degree p1 in
  if negb (degree =? total_degree p2)%nat then None                              (* 194-196 *)
  else
    let result := p9_sum (map (fun t =>
        p9_scal (/ trinomial_coefficient (snd t)) (p9_mul (fst t) (p39_coef p2 (snd t))))
      (p39_as_dict p1)) in                                                       (* 198-201 *)
    Some (p9_scal (2 ^ degree / INR (comb (2 * degree) degree)) result).         (* 202 *)

(** [Poly.terms()]: like [as_dict], except that the zero polynomial has the term (0, 1). *)
Definition poly9_terms (p : poly9) : list (list nat * R) :=
  match p9_as_dict p with
  | [] => [(key9_one, 0)]
  | d => map (fun t => (snd t, fst t)) d
  end.

Definition poly3_terms (p : poly3) : list (list nat * R) :=
  match as_dict key3_eq rsum_list rzero p with
  | [] => [([0; 0; 0]%nat, 0)]
  | d => map (fun t => let '(a, b, c) := snd t in ([a; b; c], fst t)) d
  end.
