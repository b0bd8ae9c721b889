(** axel/axel/math/CoplanarityCheck.cpp: quadratic and cubic equations, and the times when four moving
    points are coplanar.

    Simplifications: scalars are reals; the constant pi, 1/3 and 1/9, 1/54 are the real numbers. The
    branch with AVX instructions (97-207) computes the same sums of products as the other one
    (208-236), whose rounding to float is not modelled. A result is the list of the first
    [solutions] entries of the array. *)

From Coq Require Import Bool List Reals.
From Verif Require Import Rbool R3.
Import ListNotations.
Local Open Scope R_scope.

(** 1e-9 and 1e-14. *)
Definition tiny9 : R := / 1000000000.
Definition tiny14 : R := / 100000000000000.

(** std::pow(x, 1/3) of a number that is not negative. *)
Definition cbrt (x : R) : R := if Reqb x 0 then 0 else Rpower x (/ 3).

(** solveP3, lines 11-52: x^3 + a x^2 + b x + c. *)
Definition solveP3 (a b c : R) : list R :=
  let a2 := a * a in
  let q := (a2 - 3 * b) * / 9 in
  let r := (a * (2 * a2 - 9 * b) + 27 * c) * / 54 in
  let r2 := r * r in
  let q3 := q * q * q in
  if Rltb r2 q3 then
    let t := r / sqrt q3 in
    let t := if Rltb t (- 1) then - 1 else t in
    let t := if Rltb 1 t then 1 else t in
    let t := acos t in
    let m := -2 * sqrt q in
    [m * cos (t * / 3) - a / 3; m * cos ((t + 2 * PI) * / 3) - a / 3; m * cos ((t - 2 * PI) * / 3) - a / 3]
  else
    let A := - cbrt (Rabs r + sqrt (r2 - q3)) in
    let A := if Rltb r 0 then - A else A in
    let B := if Reqb A 0 then 0 else q / A in
    let x0 := A + B - a / 3 in
    let x1 := - / 2 * (A + B) - a / 3 in
    let x2 := / 2 * sqrt 3 * (A - B) in
    if Rltb (Rabs x2) tiny14 then [x0; x1; x1] else [x0].

(** solveP2, lines 54-71: a x^2 + b x + c. *)
Definition solveP2 (a b c : R) : list R :=
  let disc := b * b - 4 * a * c in
  if Rltb disc 0 then []
  else if Rltb disc tiny9 then [- b / (2 * a)]
  else [(- b + sqrt disc) / (2 * a); (- b - sqrt disc) / (2 * a)].

(** timesCoplanar, lines 91-96 and 209-236: the four coefficients. *)
Definition coef3 (u1 u2 u3 : vec3) : R :=
  - vz u1 * vy u2 * vx u3 + vy u1 * vz u2 * vx u3 + vz u1 * vx u2 * vy u3
  - vx u1 * vz u2 * vy u3 - vy u1 * vx u2 * vz u3 + vx u1 * vy u2 * vz u3.
Definition coef2 (x21 x31 x41 v21 v31 v41 : vec3) : R :=
  - vz v31 * vy v41 * vx x21 + vy v31 * vz v41 * vx x21 + vz v31 * vx v41 * vy x21
  - vx v31 * vz v41 * vy x21 - vy v31 * vx v41 * vz x21 + vx v31 * vy v41 * vz x21
  + vz v21 * vy v41 * vx x31 - vy v21 * vz v41 * vx x31 - vz v21 * vx v41 * vy x31
  + vx v21 * vz v41 * vy x31 + vy v21 * vx v41 * vz x31 - vx v21 * vy v41 * vz x31
  - vz v21 * vy v31 * vx x41 + vy v21 * vz v31 * vx x41 + vz v21 * vx v31 * vy x41
  - vx v21 * vz v31 * vy x41 - vy v21 * vx v31 * vz x41 + vx v21 * vy v31 * vz x41.
Definition coef1 (x21 x31 x41 v21 v31 v41 : vec3) : R :=
  - vz v41 * vy x21 * vx x31 + vy v41 * vz x21 * vx x31 + vz v41 * vx x21 * vy x31
  - vx v41 * vz x21 * vy x31 - vy v41 * vx x21 * vz x31 + vx v41 * vy x21 * vz x31
  + vz v31 * vy x21 * vx x41 - vy v31 * vz x21 * vx x41 - vz v21 * vy x31 * vx x41
  + vy v21 * vz x31 * vx x41 - vz v31 * vx x21 * vy x41 + vx v31 * vz x21 * vy x41
  + vz v21 * vx x31 * vy x41 - vx v21 * vz x31 * vy x41 + vy v31 * vx x21 * vz x41
  - vx v31 * vy x21 * vz x41 - vy v21 * vx x31 * vz x41 + vx v21 * vy x31 * vz x41.

(** The sums of the AVX branch: d, 100-117; a, 121-170; b, 173-221 (here as the sums of products it
    adds up); c, 224-239. Lanes are added in order. *)
Definition avx_d (v21 v31 v41 : vec3) : R :=
  (- vz v21 * vy v31 * vx v41 + vy v21 * vz v31 * vx v41 + vz v21 * vx v31 * vy v41 + - vx v21 * vz v31 * vy v41)
  + (- vy v21 * vx v31 * vz v41 + vx v21 * vy v31 * vz v41).
Definition avx_a (x21 x31 x41 v21 v31 v41 : vec3) : R :=
  (- vz v31 * vy v41 * vx x21 + vy v31 * vz v41 * vx x21 + vz v31 * vx v41 * vy x21 + - vx v31 * vz v41 * vy x21)
  + (- vy v31 * vx v41 * vz x21 + vx v31 * vy v41 * vz x21 + vz v21 * vy v41 * vx x31 + - vy v21 * vz v41 * vx x31)
  + (- vz v21 * vx v41 * vy x31 + vx v21 * vz v41 * vy x31 + vy v21 * vx v41 * vz x31 + - vx v21 * vy v41 * vz x31)
  + (- vz v21 * vy v31 * vx x41 + vy v21 * vz v31 * vx x41 + vz v21 * vx v31 * vy x41 + - vx v21 * vz v31 * vy x41)
  + (- vy v21 * vx v31 * vz x41 + vx v21 * vy v31 * vz x41).
Definition avx_b (x21 x31 x41 v21 v31 v41 : vec3) : R :=
  (- vz v41 * vy x21 * vx x31 + vy v41 * vz x21 * vx x31 + vz v41 * vx x21 * vy x31 + - vx v41 * vz x21 * vy x31)
  + (- vy v41 * vx x21 * vz x31 + vx v41 * vy x21 * vz x31 + vz v31 * vy x21 * vx x41 + - vy v31 * vz x21 * vx x41)
  + (- vz v21 * vy x31 * vx x41 + vy v21 * vz x31 * vx x41 + - vz v31 * vx x21 * vy x41 + vx v31 * vz x21 * vy x41)
  + (vz v21 * vx x31 * vy x41 + - vx v21 * vz x31 * vy x41 + vy v31 * vx x21 * vz x41 + - vx v31 * vy x21 * vz x41)
  + (- vy v21 * vx x31 * vz x41 + vx v21 * vy x31 * vz x41).

(** Lines 241-276: which equation is solved. *)
Definition solve_times (d a b c : R) : list R :=
  if Rltb (Rabs d) tiny9 then
    if Rltb (Rabs a) tiny9 then
      if Rltb tiny9 (Rabs b) then [- c / b] else [0]
    else solveP2 a b c
  else solveP3 (a / d) (b / d) (c / d).

Definition times_coplanar (x1 x2 x3 x4 v1 v2 v3 v4 : vec3) : list R :=
  let x21 := vsub x2 x1 in let x31 := vsub x3 x1 in let x41 := vsub x4 x1 in
  let v21 := vsub v2 v1 in let v31 := vsub v3 v1 in let v41 := vsub v4 v1 in
  solve_times (coef3 v21 v31 v41) (coef2 x21 x31 x41 v21 v31 v41) (coef1 x21 x31 x41 v21 v31 v41) (coef3 x21 x31 x41).
(** The same with the sums of the AVX branch. *)
Definition times_coplanar_avx (x1 x2 x3 x4 v1 v2 v3 v4 : vec3) : list R :=
  let x21 := vsub x2 x1 in let x31 := vsub x3 x1 in let x41 := vsub x4 x1 in
  let v21 := vsub v2 v1 in let v31 := vsub v3 v1 in let v41 := vsub v4 v1 in
  solve_times (avx_d v21 v31 v41) (avx_a x21 x31 x41 v21 v31 v41) (avx_b x21 x31 x41 v21 v31 v41) (avx_d x21 x31 x41).
