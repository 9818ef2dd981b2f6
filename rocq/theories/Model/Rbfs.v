From Coq Require Import Reals ZArith List Arith.
From Verif Require Import Model.LinAlg.
Import ListNotations.
Local Open Scope R_scope.

(** The radial basis functions (include/polatory/rbf). Numbers are real; the decimal constants of the code are taken as
    they are written. Every class uses the displacement only through [diff.squaredNorm()] or [diff.norm()] and returns
    multiples of [diff], of the identity and of [diff.transpose() * diff], so each is given here by three functions of the
    squared norm [s]. [range] is never 0. *)

(** A result: a number, not a number (0 * inf or 0 / 0 in the code), or an exception. *)
Inductive res (A : Type) := Num (a : A) | Nan | Raised.
Arguments Num {A}. Arguments Nan {A}. Arguments Raised {A}.
(** Helper without code of its own. *)
Definition res_map {A B : Type} (f : A -> B) (x : res A) : res B :=
  match x with Num a => Num (f a) | Nan => Nan | Raised => Raised end.
(** Helper without code of its own. *)
Definition res_map2 {A B C : Type} (f : A -> B -> C) (x : res A) (y : res B) : res C :=
  match x, y with
  | Raised, _ | _, Raised => Raised
  | Num a, Num b => Num (f a b)
  | _, _ => Nan
  end.

(** Helper without code of its own. *)
Definition lt_dec_b (a b : R) : bool := if Rlt_dec a b then true else false.
(** Helper without code of its own. *)
Definition is_zero (a : R) : bool := if Req_EM_T a 0 then true else false.

(** sqrt_pow<2 m + 1> (rbf_base.hpp:127-147). *)
Definition sqrt_pow (m : nat) (x : R) : R := x ^ m * sqrt x.

(** Coefficients [a], [b] of a Hessian [a * Identity + b * diff.transpose() * diff]. *)
Definition hess := (R * R)%type.
(** Helper without code of its own. *)
Definition hess_minus (x y : hess) : hess := (fst x - fst y, snd x - snd y).

(** PolyharmonicEven<Dim, K> (polyharmonic_even.hpp:20-70). *)
Definition even_sign (k : nat) : R := if Nat.eqb ((k / 2 + 1) mod 2) 0 then 1 else -1.
(** Within polyharmonic_even.hpp:20-70. *)
Definition even_value (k : nat) (slope c s : R) : R :=
  let rho2 := s + c * c in let rho := sqrt rho2 in
  if is_zero rho then 0 else even_sign k * slope * rho ^ k * ln rho.
(** Within polyharmonic_even.hpp:20-70. *)
Definition even_coeff (k : nat) (slope rho : R) : R := even_sign k * slope * rho ^ (k - 2) * (1 + INR k * ln rho).
(** Within polyharmonic_even.hpp:20-70. *)
Definition even_gradient (k : nat) (slope c s : R) : res R :=
  let rho2 := s + c * c in let rho := sqrt rho2 in
  if is_zero rho then Num 0 else Num (even_coeff k slope rho).
(** [1 + K * log(rho)] can be 0; then [coeff] is 0 and its factor infinite. *)
Definition even_hessian (k : nat) (slope c s : R) : res hess :=
  let rho2 := s + c * c in let rho := sqrt rho2 in
  if is_zero rho then Num (0, 0)
  else if is_zero (1 + INR k * ln rho) then Nan
  else let coeff := even_coeff k slope rho in
       Num (coeff, coeff * ((INR k - 2 + INR k / (1 + INR k * ln rho)) / rho2)).

(** PolyharmonicOdd<Dim, K> (polyharmonic_odd.hpp:19-64). *)
Definition odd_sign (k : nat) : R := if Nat.eqb (((k + 1) / 2) mod 2) 0 then 1 else -1.
(** Within polyharmonic_odd.hpp:19-64. *)
Definition odd_value (k : nat) (slope c s : R) : R :=
  let rho2 := s + c * c in let rho := sqrt rho2 in odd_sign k * slope * rho ^ k.
(** Within polyharmonic_odd.hpp:19-64. *)
Definition odd_coeff (k : nat) (slope rho : R) : R := odd_sign k * INR k * slope * powerRZ rho (Z.of_nat k - 2).
(** Within polyharmonic_odd.hpp:19-64. *)
Definition odd_gradient (k : nat) (slope c s : R) : res R :=
  let rho2 := s + c * c in let rho := sqrt rho2 in
  if is_zero rho then Num 0 else Num (odd_coeff k slope rho).
(** Within polyharmonic_odd.hpp:19-64. *)
Definition odd_hessian (k : nat) (slope c s : R) : res hess :=
  let rho2 := s + c * c in let rho := sqrt rho2 in
  if is_zero rho then Num (0, 0)
  else let coeff := odd_coeff k slope rho in Num (coeff, coeff * ((INR k - 2) / rho2)).

(** CovCubic (cov_cubic.hpp:34-60). *)
Definition cub_value (psill range s : R) : R :=
  let r := sqrt s in let rho := r / range in let rho2 := rho * rho in
  if lt_dec_b r range then psill * (1 + rho2 * (-7 + rho * (8.75 + rho2 * (-3.5 + 0.75 * rho2)))) else 0.
(** Within cov_cubic.hpp:34-60. *)
Definition cub_gradient (psill range s : R) : res R :=
  let r := sqrt s in let rho := r / range in let rho2 := rho * rho in
  Num (if lt_dec_b r range then psill * (-14 + rho * (26.25 + rho2 * (-17.5 + 5.25 * rho2))) / (range * range) else 0).
(** Within cov_cubic.hpp:34-60. *)
Definition cub_hessian (psill range s : R) : res hess := Raised.

(** CovSpherical (cov_spherical.hpp:34-55): at the origin [-1.5 / rho] is infinite and is multiplied by 0. *)
Definition sph_value (psill range s : R) : R :=
  let r := sqrt s in let rho := r / range in
  if lt_dec_b r range then psill * (1 + rho * (-1.5 + 0.5 * rho * rho)) else 0.
(** Within cov_spherical.hpp:34-55. *)
Definition sph_gradient (psill range s : R) : res R :=
  let r := sqrt s in let rho := r / range in
  if lt_dec_b r range then
    if is_zero rho then Nan else Num (psill * (-1.5 / rho + 1.5 * rho) / (range * range))
  else Num 0.
(** Within cov_spherical.hpp:34-55. *)
Definition sph_hessian (psill range s : R) : res hess := Raised.

(** CovExponential (cov_exponential.hpp:33-62): at the origin the division by [range * r] gives inf, times 0. *)
Definition exp_value (psill range s : R) : R :=
  let r := sqrt s in let rho := r / range in psill * exp (-3 * rho).
(** Within cov_exponential.hpp:33-62. *)
Definition exp_gradient (psill range s : R) : res R :=
  let r := sqrt s in let rho := r / range in
  if is_zero r then Nan else Num (-3 * psill * exp (-3 * rho) / (range * r)).
(** Within cov_exponential.hpp:33-62. *)
Definition exp_hessian (psill range s : R) : res hess :=
  let r := sqrt s in let rho := r / range in
  if is_zero r then Nan
  else let coeff := -3 * psill * exp (-3 * rho) / (range * r) in Num (coeff, - coeff * (1 / (r * r) + 3 / (range * r))).

(** CovGaussian (cov_gaussian.hpp:33-62). *)
Definition gau_value (psill range s : R) : R :=
  let r := sqrt s in let rho := r / range in psill * exp (-3 * rho * rho).
(** Within cov_gaussian.hpp:33-62. *)
Definition gau_gradient (psill range s : R) : res R :=
  let r := sqrt s in let rho := r / range in Num (-6 * psill * exp (-3 * rho * rho) / (range * range)).
(** Within cov_gaussian.hpp:33-62. *)
Definition gau_hessian (psill range s : R) : res hess :=
  let r := sqrt s in let rho := r / range in
  let coeff := -6 * psill * exp (-3 * rho * rho) / (range * range) in Num (coeff, - coeff * (6 / (range * range))).

(** CovGeneralizedCauchy3/5/7/9 (cov_generalized_cauchy3.hpp:35-63, cov_generalized_cauchy5.hpp:35-63,
    cov_generalized_cauchy7.hpp:35-63, cov_generalized_cauchy9.hpp:33-60): the exponent is [2 m + 1]. *)
Definition gc_value (m : nat) (kA psill range s : R) : R :=
  let r := sqrt s in let rho := r / range in psill / sqrt_pow m (1 + kA * rho * rho).
(** Within cov_generalized_cauchy3.hpp:35-63. *)
Definition gc_coeff (m : nat) (kA psill range rho : R) : R :=
  - kA * (2 * INR m + 1) * psill / (sqrt_pow (m + 1) (1 + kA * rho * rho) * range * range).
(** Within cov_generalized_cauchy3.hpp:35-63. *)
Definition gc_gradient (m : nat) (kA psill range s : R) : res R :=
  let r := sqrt s in let rho := r / range in Num (gc_coeff m kA psill range rho).
(** Within cov_generalized_cauchy3.hpp:35-63. *)
Definition gc_hessian (m : nat) (kA psill range s : R) : res hess :=
  let r := sqrt s in let rho := r / range in
  let coeff := gc_coeff m kA psill range rho in
  Num (coeff, - coeff * (kA * (2 * INR m + 3) / (kA * r * r + range * range))).

(** CovSpheroidal3/5/7/9 (cov_spheroidal3.hpp:44-109, cov_spheroidal5.hpp:44-109, cov_spheroidal7.hpp:44-109,
    cov_spheroidal9.hpp:42-106) with their constants; the exponent is [2 m + 1]. In
    cov_spheroidal9.hpp kC and kE are absent, which is the same as 1. *)
Record spheroid := Spheroid { sm : nat; kRho0 : R; kA : R; kB : R; kC : R; kD : R; kE : R }.
(** Within cov_spheroidal3.hpp:44-109. *)
Inductive part := Full | DirectPart | FastPart.
Section Spheroidal.
Variable sp : spheroid.
Variables psill range s : R.
Let r := sqrt s.
Let rho := r / range.
(** Within cov_spheroidal3.hpp:44-109. *)
Definition lin_value : R := psill * (1 - kA sp * rho).
(** Within cov_spheroidal3.hpp:44-109. *)
Definition imq_value : R := psill * kB sp / sqrt_pow (sm sp) (1 + kC sp * rho * rho).
(** Within cov_spheroidal3.hpp:44-109. *)
Definition lin_coeff : R := - psill * kA sp / (r * range).
(** Within cov_spheroidal3.hpp:44-109. *)
Definition imq_coeff : R := - psill * kD sp / (sqrt_pow (sm sp + 1) (1 + kC sp * rho * rho) * range * range).
(** Within cov_spheroidal3.hpp:44-109. *)
Definition lin_gradient : res R := if is_zero r then Nan else Num lin_coeff.
(** Within cov_spheroidal3.hpp:44-109. *)
Definition imq_gradient : res R := Num imq_coeff.
(** Within cov_spheroidal3.hpp:44-109. *)
Definition lin_hessian : res hess := if is_zero r then Nan else Num (lin_coeff, - lin_coeff * (1 / (r * r))).
(** Within cov_spheroidal3.hpp:44-109. *)
Definition imq_hessian : res hess :=
  Num (imq_coeff, - imq_coeff * ((2 * INR (sm sp) + 3) / (r * r + kE sp * range * range))).
(** Within cov_spheroidal3.hpp:44-109. *)
Definition sp_value (p : part) : R :=
  match p with
  | DirectPart => if lt_dec_b rho (kRho0 sp) then lin_value - imq_value else 0
  | FastPart => imq_value
  | Full => if lt_dec_b rho (kRho0 sp) then lin_value else imq_value
  end.
(** Within cov_spheroidal3.hpp:44-109. *)
Definition sp_gradient (p : part) : res R :=
  match p with
  | DirectPart => if lt_dec_b rho (kRho0 sp) then res_map2 Rminus lin_gradient imq_gradient else Num 0
  | FastPart => imq_gradient
  | Full => if lt_dec_b rho (kRho0 sp) then lin_gradient else imq_gradient
  end.
(** Within cov_spheroidal3.hpp:44-109. *)
Definition sp_hessian (p : part) : res hess :=
  match p with
  | DirectPart => if lt_dec_b rho (kRho0 sp) then res_map2 hess_minus lin_hessian imq_hessian else Num (0, 0)
  | FastPart => imq_hessian
  | Full => if lt_dec_b rho (kRho0 sp) then lin_hessian else imq_hessian
  end.
End Spheroidal.

(** The constants (cov_spheroidal3.hpp:27-32, cov_spheroidal5.hpp:27-32, cov_spheroidal7.hpp:27-32, cov_spheroidal9.hpp:27-30; line 24 of
    cov_generalized_cauchy3/5/7.hpp, 1 where cov_generalized_cauchy9.hpp has none). *)
Definition sp3 := Spheroid 1 0.18657871684006438 2.009875543958482 0.8734640537108553 7.181510581693163 18.81837403335934 0.1392464703107397.
(** Within cov_spheroidal5.hpp:27-32. *)
Definition sp5 := Spheroid 2 0.2580127411803573 1.6149073288415876 0.8575980168032007 2.5036086535164204 10.735449080535068 0.39942344766841226.
(** Within cov_spheroidal7.hpp:27-32. *)
Definition sp7 := Spheroid 3 0.2944149476843637 1.4859979204216045 0.8494862533016855 1.44208314742683 8.57520866899984 0.6934412913598931.
(** Within cov_spheroidal9.hpp:27-30. *)
Definition sp9 := Spheroid 4 0.31622776601683794 1.4230249470757708 0.8445585690332554 1 7.601027121299299 1.
(** Within cov_generalized_cauchy3.hpp:24. *)
Definition gc_constant (m : nat) : R :=
  match m with 1%nat => 7 | 2%nat => 2.4822022531844965 | 3%nat => 1.438027308408951 | _ => 1 end.

(** All of them. *)
Inductive kind := Bh2 | Th2 | Bh3 | Th3 | Cub | Exp | Gau | Gc3 | Gc5 | Gc7 | Gc9 | Sph | Sp (sp : spheroid) (p : part).
(** Within rbf_base.hpp:40-53. *)
Definition value (k : kind) : R -> R -> R -> R :=
  match k with
  | Bh2 => even_value 2 | Th2 => even_value 4 | Bh3 => odd_value 1 | Th3 => odd_value 3
  | Cub => cub_value | Exp => exp_value | Gau => gau_value
  | Gc3 => gc_value 1 (gc_constant 1) | Gc5 => gc_value 2 (gc_constant 2)
  | Gc7 => gc_value 3 (gc_constant 3) | Gc9 => gc_value 4 (gc_constant 4)
  | Sph => sph_value | Sp sp p => fun psill range s => sp_value sp psill range s p
  end.
(** Within rbf_base.hpp:40-53. *)
Definition gradient (k : kind) : R -> R -> R -> res R :=
  match k with
  | Bh2 => even_gradient 2 | Th2 => even_gradient 4 | Bh3 => odd_gradient 1 | Th3 => odd_gradient 3
  | Cub => cub_gradient | Exp => exp_gradient | Gau => gau_gradient
  | Gc3 => gc_gradient 1 (gc_constant 1) | Gc5 => gc_gradient 2 (gc_constant 2)
  | Gc7 => gc_gradient 3 (gc_constant 3) | Gc9 => gc_gradient 4 (gc_constant 4)
  | Sph => sph_gradient | Sp sp p => fun psill range s => sp_gradient sp psill range s p
  end.
(** Within rbf_base.hpp:40-53. *)
Definition hessian (k : kind) : R -> R -> R -> res hess :=
  match k with
  | Bh2 => even_hessian 2 | Th2 => even_hessian 4 | Bh3 => odd_hessian 1 | Th3 => odd_hessian 3
  | Cub => cub_hessian | Exp => exp_hessian | Gau => gau_hessian
  | Gc3 => gc_hessian 1 (gc_constant 1) | Gc5 => gc_hessian 2 (gc_constant 2)
  | Gc7 => gc_hessian 3 (gc_constant 3) | Gc9 => gc_hessian 4 (gc_constant 4)
  | Sph => sph_hessian | Sp sp p => fun psill range s => sp_hessian sp psill range s p
  end.
(** support_radius_isotropic(): None is infinity (rbf_base.hpp:91-93, cov_cubic.hpp:64, cov_spherical.hpp:59,
    cov_spheroidal3.hpp:113-116). *)
Definition support_radius (k : kind) (range : R) : option R :=
  match k with
  | Cub | Sph => Some range
  | Sp sp DirectPart => Some (kRho0 sp * range)
  | _ => None
  end.

(** evaluate_isotropic and its derivatives at a vector of [n] components. *)
Section Vectors.
Variable n : nat.
Variable k : kind.
Variables p0 p1 : R.
(** Within rbf_base.hpp:40-53. *)
Definition value_at (v : nat -> R) : R := value k p0 p1 (dot n v v).
(** Within rbf_base.hpp:40-53. *)
Definition gradient_at (v : nat -> R) : res (nat -> R) :=
  res_map (fun coeff e => coeff * v e) (gradient k p0 p1 (dot n v v)).
(** Within rbf_base.hpp:40-53. *)
Definition hessian_at (v : nat -> R) : res (nat -> nat -> R) :=
  res_map (fun ab c e => fst ab * (if Nat.eqb c e then 1 else 0) + snd ab * (v c * v e)) (hessian k p0 p1 (dot n v v)).

(** evaluate, evaluate_gradient and evaluate_hessian (rbf_base.hpp:40-53) with the anisotropy matrix [a]; a row vector
    times [a], and [a.transpose() * h * a]. *)
Variable a : nat -> nat -> R.
(** Helper without code of its own. *)
Definition row_mat (g : nat -> R) (e : nat) : R := rsum n (fun i => g i * a i e).
(** Helper without code of its own. *)
Definition sandwich (h : nat -> nat -> R) (c e : nat) : R := rsum n (fun j => rsum n (fun i => a i c * h i j) * a j e).
(** evaluate (rbf_base.hpp:40-43). *)
Definition evaluate (diff : nat -> R) : R := value_at (mat_vec n a diff).
(** evaluate_gradient (rbf_base.hpp:45-48). *)
Definition evaluate_gradient (diff : nat -> R) : res (nat -> R) := res_map row_mat (gradient_at (mat_vec n a diff)).
(** evaluate_hessian (rbf_base.hpp:50-53). *)
Definition evaluate_hessian (diff : nat -> R) : res (nat -> nat -> R) := res_map sandwich (hessian_at (mat_vec n a diff)).
End Vectors.

(** The kernels (include/polatory/fmm/kernel.hpp:43-52, gradient_kernel.hpp:45-61, gradient_transpose_kernel.hpp:47-63,
    hessian_kernel.hpp:46-65) at two already transformed points: entry (i, j) for output i and input j. *)
Inductive kernel_kind := KValue | KGradient | KGradientT | KHessian.
(** Within include/polatory/fmm/kernel.hpp:43-52, gradient_kernel.hpp:45-61, gradient_transpose_kernel.hpp:47-63, hessian_kernel.hpp:46-65. *)
Definition kernel_entry (n : nat) (k : kind) (p0 p1 : R) (a : nat -> nat -> R) (kk : kernel_kind) (i j : nat) (diff : nat -> R) : res R :=
  match kk with
  | KValue => Num (value_at n k p0 p1 diff)
  | KGradient => res_map (fun g => - row_mat n a g j) (gradient_at n k p0 p1 diff)
  | KGradientT => res_map (fun g => row_mat n a g i) (gradient_at n k p0 p1 diff)
  | KHessian => res_map (fun h => - sandwich n a h i j) (hessian_at n k p0 p1 diff)
  end.
(** The number of inputs km per source point (kernel.hpp:26, gradient_kernel.hpp:28, gradient_transpose_kernel.hpp:29,
    hessian_kernel.hpp:28). *)
Definition kernel_inputs (n : nat) (kk : kernel_kind) : nat := match kk with KValue | KGradientT => 1%nat | KGradient | KHessian => n end.

(** [p.outputs(i) += q.inputs(j) * k.at(km * i + j)] over the inputs of one source (src/fmm/direct_evaluator.hpp:59-63). *)
Definition add_source (km : nat) (entry : nat -> res R) (w : nat -> R) (y : res R) : res R :=
  fold_left (fun y j => res_map2 Rplus y (res_map (fun k => w j * k) (entry j))) (seq 0 km) y.
(** One output of one target: FmmGenericEvaluator::Impl::evaluate (src/fmm/direct_evaluator.hpp:41-68). [points] are the transformed
    sources, [x] is the transformed target and [indices] what the radius search returns. *)
Definition direct_target (n : nat) (k : kind) (p0 p1 : R) (a : nat -> nat -> R) (kk : kernel_kind)
    (points : nat -> nat -> R) (w : nat -> R) (x : nat -> R) (i : nat) (indices : list nat) : res R :=
  let km := kernel_inputs n kk in
  fold_left (fun y src => add_source km (fun j => kernel_entry n k p0 p1 a kk i j (fun d => x d - points src d))
                            (fun j => w (km * src + j)%nat) y) indices (Num 0).
(** FmmGenericSymmetricEvaluator::Impl::evaluate with handle_self_interaction (direct_symmetric_evaluator.hpp:35-62,101-117):
    the target itself is left out and its own kernel is added at the end. *)
Definition direct_symmetric (n : nat) (k : kind) (p0 p1 : R) (a : nat -> nat -> R) (kk : kernel_kind)
    (points : nat -> nat -> R) (w : nat -> R) (trg : nat) (i : nat) (indices : list nat) : res R :=
  let km := kernel_inputs n kk in
  let y := direct_target n k p0 p1 a kk points w (points trg) i (filter (fun src => negb (Nat.eqb src trg)) indices) in
  add_source km (fun j => kernel_entry n k p0 p1 a kk i j (fun d => 0 - 0)) (fun j => w (km * trg + j)%nat) y.
(** FmmGenericEvaluator::Impl::evaluate for spheroidal functions (spheroidal_evaluator.hpp:24-29). *)
Definition spheroidal_sum (direct fast : res R) : res R := res_map2 Rplus (res_map2 Rplus (Num 0) direct) fast.
