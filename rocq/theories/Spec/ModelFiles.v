From Coq Require Import String Ascii List NArith ZArith.
From Verif Require Import Model.Outcome Model.RbfModel Model.ModelArgs Model.Io Spec.RbfModel Spec.ModelArgs Spec.Io.
From Verif Require Model.Rbfs.
Import ListNotations.
Local Open Scope N_scope.

(** What may be assumed of the machine: numbers are 64 bits, the identity has a positive determinant, and there is memory for [n] objects. *)
Definition machine (d : nat) (max_elems : N) (det_pos : list N -> bool) (to_double : token -> N) (n : nat) : Prop :=
  (forall t, to_double t < 2 ^ 64) /\ det_pos (identity d) = true /\ size_ok max_elems n /\ size_ok max_elems 3.
(** A function in a file is the one that was spelled: its name, its parameters with the defaults filled in, and the last of its anisotropies. *)
Definition stores (d : nat) (to_double : token -> N) (x : item) (r : Io.rbf) : Prop :=
  name r = map N_of_ascii (i_name x) /\
  (exists k, i_name x = short_name k /\ constructed_parameters zero one k (map to_double (i_params x)) = Some (params r)) /\
  aniso r = last (map (map to_double) (i_anisos x)) (identity d).
(** The spelled function is polyharmonic. *)
Definition polyharmonic (x : item) : Prop := exists k, In k [Bh2; Bh3; Th2; Th3] /\ i_name x = short_name k.
(** The results of fitting are objects that can be saved. *)
Definition saveable_result (d : nat) (max_elems : N) (r : dynmat * dynmat * bbox * dynmat) : Prop :=
  let '(c, gc, b, w) := r in
  saveable_dynmat max_elems d c /\ saveable_dynmat max_elems d gc /\ saveable_bbox d b /\ saveable_dynmat max_elems 1 w.
(** The names in the files and the formulas they stand for. *)
Definition meaning : list (string * Rbfs.kind) :=
  [("bh2", Rbfs.Bh2); ("bh3", Rbfs.Bh3); ("th2", Rbfs.Th2); ("th3", Rbfs.Th3); ("cub", Rbfs.Cub); ("exp", Rbfs.Exp); ("gau", Rbfs.Gau); ("sph", Rbfs.Sph);
   ("gc3", Rbfs.Gc3); ("gc5", Rbfs.Gc5); ("gc7", Rbfs.Gc7); ("gc9", Rbfs.Gc9);
   ("sp3", Rbfs.Sp Rbfs.sp3 Rbfs.Full); ("sp5", Rbfs.Sp Rbfs.sp5 Rbfs.Full); ("sp7", Rbfs.Sp Rbfs.sp7 Rbfs.Full); ("sp9", Rbfs.Sp Rbfs.sp9 Rbfs.Full)]%string.
