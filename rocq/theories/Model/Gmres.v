From Coq Require Import Reals List Arith Bool.
From Verif Require Import Model.LinAlg Model.RasPreconditioner.
Import ListNotations.
Local Open Scope R_scope.

(** GmresBase, Gmres, Fgmres and Minres (src/krylov/*.cpp). Numbers are real; vectors have [m] rows. A division by zero gives a
    NaN (or an infinity) in C++; here the affected values are arbitrary and a flag says so: [v_ok] is about the last basis
    vector, [ok] about all the rest. The parallel loop over the dot products (gmres.cpp:20-23) writes separate entries.
    The capacity of the arrays is max_iter, which iterate_process never exceeds. *)
Section Gmres.
Variable m max_iter : nat.
Variable op left right : (nat -> R) -> nat -> R.
Variable x0 rhs : nat -> R.

(** Within gmres.cpp:20-23. *)
Record state := State {
  vs : nat -> nat -> R; zs : nat -> nat -> R;      (* basis vectors, and these right preconditioned *)
  r : nat -> nat -> R; c : nat -> R; s : nat -> R; g : nat -> R;
  iter : nat; v_ok : bool; ok : bool }.
(** Helper without code of its own. *)
Definition upd {A} (f : nat -> A) (k : nat) (x : A) (i : nat) : A := if Nat.eqb i k then x else f i.
(** Helper without code of its own. *)
Definition is0 (x : R) : bool := if Req_EM_T x 0 then true else false.

(** Eigen's isZero with its default precision. *)
Definition is_zero (x : nat -> R) : bool := forallb (fun i => if Rle_dec (Rabs (x i)) (/ 10 ^ 12) then true else false) (seq 0 m).

(** setup (gmres_base.cpp:35-47). *)
Definition residual0 : nat -> R := left (if is_zero x0 then rhs else fun i => rhs i - op x0 i).
(** setup (gmres_base.cpp:35-47). *)
Definition setup : state :=
  let g0 := norm m residual0 in
  State (fun _ i => residual0 i / g0) (fun _ _ => 0) (fun _ _ => 0) (fun _ => 0) (fun _ => 0) (upd (fun _ => 0) 0 g0) 0 (negb (is0 g0)) true.

(** One Givens rotation of a column (gmres.cpp:31-38), and the rotations lo..j-1. *)
Definition rotate (cc ss : R) (i : nat) (col : nat -> R) : nat -> R :=
  upd (upd col i (cc * col i + ss * col (S i))) (S i) (- ss * col i + cc * col (S i)).
(** Within gmres.cpp:31-38. *)
Definition rotations (cs sn : nat -> R) (lo j : nat) (col : nat -> R) : nat -> R :=
  fold_left (fun col i => rotate (cs i) (sn i) i col) (seq lo (j - lo)) col.

(** The end of both iterations (gmres.cpp:27-49, minres.cpp:25-48): [w] is the new vector before its normalization and [h] the
    new column above it; rotations begin at [lo]. *)
Definition extend (lo : nat) (st : state) (z w h : nat -> R) : state :=
  let j := iter st in
  let hn := norm m w in
  let col := rotations (c st) (s st) lo j (upd h (S j) hn) in
  let x := col j in
  let y := col (S j) in
  let den := sqrt (x * x + y * y) in
  let cj := x / den in
  let sj := y / den in
  State (upd (vs st) (S j) (fun i => w i / hn)) (upd (zs st) j z)
    (fun i k => if Nat.eqb k j then upd col j (cj * x + sj * y) i else r st i k)
    (upd (c st) j cj) (upd (s st) j sj) (upd (upd (g st) (S j) (- sj * g st j)) j (cj * g st j))
    (S j) (negb (is0 hn)) (ok st && v_ok st && negb (is0 den)).

(** Gmres::iterate_process (gmres.cpp:9-50). *)
Definition gmres_step (st : state) : state :=
  if Nat.eqb (iter st) max_iter then st else
  let j := iter st in
  let z := right (vs st j) in
  let w := left (op z) in
  let h := fun i => if (i <=? j)%nat then dot m (vs st i) w else r st i j in
  let w' := fold_left (fun w i => fun k => w k - h i * vs st i k) (seq 0 (S j)) w in
  extend 0 st z w' h.

(** Minres::iterate_process (minres.cpp:9-49). [beta] is the norm of the last step, zero at first. *)
Definition minres_step (b : R * state) : R * state :=
  let (beta, st) := b in
  if Nat.eqb (iter st) max_iter then b else
  let j := iter st in
  let z := right (vs st j) in
  let w := left (op z) in
  let a := dot m (vs st j) w in
  let h := if Nat.eqb j 0 then upd (fun i => r st i j) j a else upd (upd (fun i => r st i j) j a) (j - 1) beta in
  let w' := if Nat.eqb j 0 then fun k => w k - a * vs st j k
            else fun k => w k - (beta * vs st (j - 1)%nat k + a * vs st j k) in
  (norm m w', extend (j - 2) st z w' h).

(** Within minres.cpp:9-49. *)
Definition gmres (k : nat) : state := Nat.iter k gmres_step setup.
(** Within minres.cpp:9-49. *)
Definition minres (k : nat) : state := snd (Nat.iter k minres_step (0, setup)).

(** Backward substitution (gmres_base.cpp:50-59): entries computed for iter-1 down to 0. *)
Definition back_step (st : state) (y : nat -> R) (j : nat) : nat -> R :=
  upd y j ((fold_left (fun acc i => acc - r st j i * y i) (seq (S j) (iter st - S j)) (g st j)) / r st j j).
(** Within gmres_base.cpp:50-59. *)
Definition back_substitution (st : state) : nat -> R := fold_left (back_step st) (rev (seq 0 (iter st))) (fun _ => 0).
(** solution_vector (gmres_base.cpp:49-69; Fgmres: fgmres.cpp:8-26). *)
Definition solution (st : state) : nat -> R :=
  let y := back_substitution st in
  let x := fold_left (fun x i => fun k => x k + y i * vs st i k) (seq 0 (iter st)) (fun _ => 0) in
  fun k => right x k + x0 k.
(** Within gmres_base.cpp:49-69, fgmres.cpp:8-26. *)
Definition fgmres_solution (st : state) : nat -> R :=
  let y := back_substitution st in
  fold_left (fun x i => fun k => x k + y i * zs st i k) (seq 0 (iter st)) x0.

(** absolute_residual (gmres_base.cpp:7), None is NaN. *)
Definition absolute_residual (st : state) : option R := if ok st then Some (Rabs (g st (iter st))) else None.
End Gmres.
