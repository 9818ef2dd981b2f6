From Coq Require Import Reals ZArith List Arith Bool.
From Verif Require Import Model.Outcome Model.LinAlg Model.Rbfs.
Import ListNotations.
Local Open Scope R_scope.

(** Fitting a model to variograms (include/polatory/kriging/variogram_fitting.hpp, variogram_fitting_1d/2d/3d.hpp, weight_function.hpp) with
    real numbers, in [n] dimensions, n = 1, 2 or 3. The minimization itself is the Ceres library and not modelled: the residual it is given
    is, and the model made from the parameters it leaves. *)

(** Model with its functions; all functions have two parameters (RbfModel.v). *)
Record function := Function { f_kind : kind; f_p0 : R; f_p1 : R; f_aniso : nat -> nat -> R }.
(** Within model.hpp:180-182. *)
Record rbf_model := RbfModel { m_nugget : R; m_rbfs : list function }.
(** parameters (model.hpp:117-123). *)
Definition parameters (m : rbf_model) : list R := m_nugget m :: flat_map (fun f => [f_p0 f; f_p1 f]) (m_rbfs m).
(** parameter_lower_bounds, parameter_upper_bounds (model.hpp:91-98, 108-115); None is infinity. *)
Definition lower_bounds (m : rbf_model) : list R := 0 :: flat_map (fun _ => [0; 0]) (m_rbfs m).
(** Within model.hpp:91-98, 108-115. *)
Definition upper_bounds (m : rbf_model) : list (option R) := None :: flat_map (fun _ => [None; None]) (m_rbfs m).
(** set_parameters (model.hpp:143-156). *)
Fixpoint with_parameters (fs : list function) (ps : list R) : outcome (list function) :=
  match fs, ps with
  | [], [] => Ok []
  | f :: fs', a :: b :: ps' => let* r := with_parameters fs' ps' in Ok (Function (f_kind f) a b (f_aniso f) :: r)
  | _, _ => Throw ExInvalidArgument
  end.
(** set_parameters (model.hpp:143-156). *)
Definition set_parameters (m : rbf_model) (ps : list R) : outcome rbf_model :=
  match ps with
  | [] => Throw ExInvalidArgument
  | c :: ps' =>
      if negb (length ps =? length (parameters m))%nat then Throw ExInvalidArgument else
      if negb (if Rle_dec 0 c then true else false) then Throw ExInvalidArgument else
      let* fs := with_parameters (m_rbfs m) ps' in Ok (RbfModel c fs)
  end.

(** clamp_parameters (variogram_fitting.hpp:18-25). *)
Definition clamp (lo : R) (hi : option R) (x : R) : R :=
  if lt_dec_b x lo then lo else match hi with None => x | Some h => if lt_dec_b h x then h else x end.
(** Within variogram_fitting.hpp:18-25. *)
Fixpoint clamp_all (los : list R) (his : list (option R)) (n : nat) (ps : list R) : outcome (list R) :=
  match n with
  | O => Ok ps
  | S n' =>
      match los, his, ps with
      | lo :: los', hi :: his', x :: ps' => let* r := clamp_all los' his' n' ps' in Ok (clamp lo hi x :: r)
      | _, _, _ => Throw ExOutOfRange
      end
  end.
(** clamp_parameters (variogram_fitting.hpp:18-25). *)
Definition clamp_parameters (m : rbf_model) (ps : list R) : outcome (list R) :=
  clamp_all (lower_bounds m) (upper_bounds m) (length (parameters m)) ps.

(** std::pow; None where the result is infinite or not a number. *)
Definition power (x y : R) : option R :=
  if lt_dec_b 0 x then Some (Rpower x y) else
  if is_zero x then if is_zero y then Some 1 else if lt_dec_b 0 y then Some 0 else None else
  if is_zero (IZR (Int_part y) - y) then Some (powerRZ x (Int_part y)) else None.
(** Helper without code of its own. *)
Definition times (x y : option R) : option R := match x, y with Some a, Some b => Some (a * b) | _, _ => None end.
(** WeightFunction (weight_function.hpp): the three exponents, the named ones (weight_function.hpp:33-38) and the call (weight_function.hpp:22-25). *)
Record weights := Weights { exp_distance : R; exp_model_gamma : R; exp_num_pairs : R }.
(** Within weight_function.hpp:33-38, weight_function.hpp:22-25. *)
Definition kNumPairs := Weights 0 0 1.
(** Within weight_function.hpp:33-38, weight_function.hpp:22-25. *)
Definition kNumPairsOverDistanceSquared := Weights (-2) 0 1.
(** Within weight_function.hpp:33-38, weight_function.hpp:22-25. *)
Definition kNumPairsOverModelGammaSquared := Weights 0 (-2) 1.
(** Within weight_function.hpp:33-38, weight_function.hpp:22-25. *)
Definition kOne := Weights 0 0 0.
(** Within weight_function.hpp:33-38, weight_function.hpp:22-25. *)
Definition kOneOverDistanceSquared := Weights (-2) 0 0.
(** Within weight_function.hpp:33-38, weight_function.hpp:22-25. *)
Definition kOneOverModelGammaSquared := Weights 0 (-2) 0.
(** Within weight_function.hpp:33-38, weight_function.hpp:22-25. *)
Definition weight (w : weights) (distance model_gamma : R) (num_pairs : nat) : option R :=
  times (times (power distance (0.5 * exp_distance w)) (power model_gamma (0.5 * exp_model_gamma w))) (power (INR num_pairs) (0.5 * exp_num_pairs w)).

(** A variogram (variogram.hpp): its direction and bins of distance, gamma and number of pairs. *)
Record variogram := Variogram { v_direction : nat -> R; v_bins : list (R * R * nat) }.

Section Fitting.
Variable n : nat.

(** compute_residuals (variogram_fitting.hpp:27-54). Ok None: false was returned. *)
Definition model_gamma (m : rbf_model) (diff : nat -> R) : R :=
  fold_left (fun g f => g + (evaluate n (f_kind f) (f_p0 f) (f_p1 f) (f_aniso f) (fun _ => 0) -
                             evaluate n (f_kind f) (f_p0 f) (f_p1 f) (f_aniso f) diff)) (m_rbfs m) (m_nugget m).
(** Within variogram_fitting.hpp:27-54. *)
Definition residual (m : rbf_model) (dir : nat -> R) (w : weights) (b : R * R * nat) : option R :=
  let '(dist, gamma, num_pairs) := b in
  let g := model_gamma m (fun e => dist * dir e) in
  times (weight w dist g num_pairs) (Some (gamma - g)).
(** compute_residuals (variogram_fitting.hpp:27-54). *)
Definition compute_residuals (m : rbf_model) (v : variogram) (w : weights) : option (list (option R)) :=
  if existsb (fun f => is_zero (f_p1 f)) (m_rbfs m) then None else Some (map (residual m (v_direction v) w) (v_bins v)).

(** set_anisotropy (rbf_base.hpp:73-79). *)
Definition identity (i j : nat) : R := if (i =? j)%nat then 1 else 0.
(** Helper without code of its own. *)
Definition det (a : nat -> nat -> R) : R :=
  match n with
  | 1%nat => a 0%nat 0%nat
  | 2%nat => a 0%nat 0%nat * a 1%nat 1%nat - a 0%nat 1%nat * a 1%nat 0%nat
  | _ =>
      a 0%nat 0%nat * (a 1%nat 1%nat * a 2%nat 2%nat - a 1%nat 2%nat * a 2%nat 1%nat)
      - a 0%nat 1%nat * (a 1%nat 0%nat * a 2%nat 2%nat - a 1%nat 2%nat * a 2%nat 0%nat)
      + a 0%nat 2%nat * (a 1%nat 0%nat * a 2%nat 1%nat - a 1%nat 1%nat * a 2%nat 0%nat)
  end.
(** set_anisotropy (rbf_base.hpp:73-79). *)
Definition set_anisotropy (f : function) (a : nat -> nat -> R) : outcome function :=
  if lt_dec_b 0 (det a) then Ok (Function (f_kind f) (f_p0 f) (f_p1 f) a) else Throw ExInvalidArgument.
(** The template (variogram_fitting_1d.hpp:33-35, variogram_fitting_2d.hpp:36-38, variogram_fitting_3d.hpp:35-37): the anisotropies of the given model are dropped. *)
Fixpoint each_anisotropy (fs : list function) (i : nat) (a : nat -> nat -> nat -> R) : outcome (list function) :=
  match fs with
  | [] => Ok []
  | f :: fs' => let* f' := set_anisotropy f (a i) in let* r := each_anisotropy fs' (S i) a in Ok (f' :: r)
  end.
(** Within variogram_fitting_1d.hpp:33-35, variogram_fitting_2d.hpp:36-38, variogram_fitting_3d.hpp:35-37. *)
Definition template (m : rbf_model) : outcome rbf_model :=
  let* fs := each_anisotropy (m_rbfs m) 0 (fun _ => identity) in Ok (RbfModel (m_nugget m) fs).

(** inv_scale * inv_rot for the function [i] (variogram_fitting_2d.hpp:98-106, 137-145; variogram_fitting_3d.hpp:105-114, 146-155): [rot] is the rotation matrix and
    [scale i] the diagonal. *)
Definition scaled (rot : nat -> nat -> R) (scale : nat -> R) (i j : nat) : R := scale i * rot i j.
(** Within variogram_fitting_2d.hpp:98-106, 137-145, variogram_fitting_3d.hpp:105-114, 146-155. *)
Definition apply_anisotropy (m : rbf_model) (fit : bool) (rot : nat -> nat -> R) (scale : nat -> nat -> R) : outcome rbf_model :=
  if fit then let* fs := each_anisotropy (m_rbfs m) 0 (fun i => scaled rot (scale i)) in Ok (RbfModel (m_nugget m) fs) else Ok m.
(** The cost function (variogram_fitting_1d.hpp:81-91, variogram_fitting_2d.hpp:121-149, variogram_fitting_3d.hpp:129-159) at the parameter blocks. *)
Definition cost (tmpl : rbf_model) (fit : bool) (v : variogram) (w : weights) (ps : list R) (rot : nat -> nat -> R) (scale : nat -> nat -> R) :
    outcome (option (list (option R))) :=
  let* qs := clamp_parameters tmpl ps in
  let* m := set_parameters tmpl qs in
  let* m := apply_anisotropy m fit rot scale in
  Ok (compute_residuals m v w).
(** model() (variogram_fitting_1d.hpp:69-74, variogram_fitting_2d.hpp:92-110, variogram_fitting_3d.hpp:99-118). *)
Definition final_model (tmpl : rbf_model) (fit : bool) (ps : list R) (rot : nat -> nat -> R) (scale : nat -> nat -> R) : outcome rbf_model :=
  let* m := set_parameters tmpl ps in apply_anisotropy m fit rot scale.
End Fitting.

(** The rotations: Eigen's Rotation2D (variogram_fitting_2d.hpp:97, 134-135) and normalized quaternion (variogram_fitting_3d.hpp:104, 144); [normalized] leaves zero alone. *)
Definition rotation2 (angle : R) (i j : nat) : R :=
  match i, j with
  | 0%nat, 0%nat => cos angle | 0%nat, _ => - sin angle
  | _, 0%nat => sin angle | _, _ => cos angle
  end.
(** Within variogram_fitting_2d.hpp:97, 134-135, variogram_fitting_3d.hpp:104, 144. *)
Definition quaternion_matrix (x y z w : R) (i j : nat) : R :=
  match i, j with
  | 0%nat, 0%nat => 1 - (2 * y * y + 2 * z * z) | 0%nat, 1%nat => 2 * x * y - 2 * z * w | 0%nat, _ => 2 * x * z + 2 * y * w
  | 1%nat, 0%nat => 2 * x * y + 2 * z * w | 1%nat, 1%nat => 1 - (2 * x * x + 2 * z * z) | 1%nat, _ => 2 * y * z - 2 * x * w
  | _, 0%nat => 2 * x * z - 2 * y * w | _, 1%nat => 2 * y * z + 2 * x * w | _, _ => 1 - (2 * x * x + 2 * y * y)
  end.
(** Within variogram_fitting_2d.hpp:97, 134-135, variogram_fitting_3d.hpp:104, 144. *)
Definition rotation3 (x y z w : R) : nat -> nat -> R :=
  let s := x * x + y * y + z * z + w * w in
  if lt_dec_b 0 s then quaternion_matrix (x / sqrt s) (y / sqrt s) (z / sqrt s) (w / sqrt s) else quaternion_matrix x y z w.
(** The diagonals (variogram_fitting_2d.hpp:101-102, variogram_fitting_3d.hpp:108-110). *)
Definition scale2 (minor : R) (i : nat) : R := match i with 0%nat => 1 | _ => minor end.
(** Helper without code of its own. *)
Definition scale3 (major minor : R) (i : nat) : R := match i with 0%nat => major | 1%nat => 1 | _ => minor end.
