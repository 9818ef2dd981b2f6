From Coq Require Import Reals List Arith ZArith.
From Verif Require Import Model.Outcome Model.LinAlg.
Import ListNotations.
Local Open Scope R_scope.

(** NormalScoreTransformation (include/polatory/kriging/normal_score_transformation.hpp). Exact arithmetic; [quantile] is
    inv_normal_cdf (normal_score_transformation.hpp:113-115). An empty vector, whose mean is NaN, is not modelled. *)
Record score := { s_order : nat; s_phi : option (nat -> R) }.   (* s_phi is None until transformed_ is set *)
(** normal_score_transformation.hpp:14-18. *)
Definition new_score (order : Z) : outcome score :=
  if (order <? 0)%Z then Throw ExInvalidArgument else Ok {| s_order := Z.to_nat order; s_phi := None |}.

Section Score.
Variable quantile : R -> R.
(** Helper without code of its own. *)
Definition set_at (v : nat -> R) (i : nat) (x : R) : nat -> R := fun k => if Nat.eqb k i then x else v k.
(** normal_score_transformation.hpp:26-31: [indices] is the answer of std::sort. *)
Definition scores (n : nat) (indices : list nat) : nat -> R :=
  fold_left (fun y i => set_at y (nth i indices 0%nat) (quantile ((2 * INR i + 1) * (1 / (2 * INR n))))) (seq 0 n) (fun _ => 0).

(** h0y and h1y at the start of pass [p + 1] of the loops (normal_score_transformation.hpp:44-58, 99-110). *)
Fixpoint hermite_pair (p : nat) (y : R) : R * R :=
  match p with
  | O => (1, - y)
  | S p' => let '(h0, h1) := hermite_pair p' y in
            (h1, -1 / sqrt (INR p + 1) * (y * h1) - sqrt (INR p / (INR p + 1)) * h0)
  end.
(** normal_score_transformation.hpp:88-97. *)
Definition slope (n : nat) (z : nat -> R) (i : nat) : R :=
  if Nat.eqb i 0 then z i - z (S i)
  else if Nat.eqb i (n - 1) then z (i - 1)%nat - z i
  else 0.5 * (z (i - 1)%nat - z (S i)).
(** Within normal_score_transformation.hpp:88-97. *)
Definition density (y : R) : R := 1 / sqrt (2 * PI) * exp (-0.5 * (y * y)).
(** compute_phi (normal_score_transformation.hpp:81-111): with one sample normal_score_transformation.hpp:91 reads z(1). *)
Definition compute_phi (n order : nat) (z y : nat -> R) : outcome (nat -> R) :=
  if Nat.eqb n 1 then UB
  else Ok (fun p => if Nat.eqb p 0 then rsum n z / INR n
                    else if (p <=? order)%nat then 1 / sqrt (INR p) * rsum n (fun i => slope n z i * fst (hermite_pair (p - 1) (y i)) * density (y i))
                    else 0).
(** transform (normal_score_transformation.hpp:20-37). *)
Definition transform (t : score) (n : nat) (z : nat -> R) (indices : list nat) : outcome (score * (nat -> R)) :=
  let y := scores n indices in
  let* phi := compute_phi n (s_order t) (fun i => z (nth i indices 0%nat)) (fun i => y (nth i indices 0%nat)) in
  Ok ({| s_order := s_order t; s_phi := Some phi |}, y).
(** back_transform for one value (normal_score_transformation.hpp:39-61). *)
Definition back_transform (t : score) (y : R) : outcome R :=
  match s_phi t with
  | None => Throw ExRuntimeError
  | Some phi => Ok (fold_left (fun z p => z + phi p * snd (hermite_pair (p - 1) y)) (seq 1 (s_order t)) (phi 0%nat * 1))
  end.
(** back_transform_gamma (normal_score_transformation.hpp:63-77). *)
Definition back_transform_gamma (t : score) (gamma_y : R) : outcome R :=
  match s_phi t with
  | None => Throw ExRuntimeError
  | Some phi => Ok (fst (fold_left (fun '(g, q) p => (g + phi p * phi p * (1 - q), q * (1 - gamma_y))) (seq 1 (s_order t)) (0, 1 - gamma_y)))
  end.
End Score.
