From Coq Require Import List Arith ZArith QArith.
From Verif Require Import Model.MeshDefects Model.Triangulation Spec.VertexClusterer.
Import ListNotations.
Local Open Scope nat_scope.

(** The sides of the polygon, in the direction in which its inside is on the left. *)
Definition follows (E : tenv) (i j : nat) : Prop := i < nb E /\ j < nb E /\ (S i = j \/ (S i = nb E /\ j = 0)).
Definition border (E : tenv) (a b : nat) : Prop := if backwards E then follows E b a else follows E a b.

Definition all_sides (fs : list face) : list (nat * nat) := flat_map sides fs.
Definition used (fs : list face) (v : nat) : Prop := exists f, In f fs /\ has_corner f v.

(** A triangulation of the polygon that uses the interior points [ins]: proper triangles, oriented alike, each
    side of the polygon on one of them, every other side on two, and the number of triangles of a disk. *)
Definition triangulation (E : tenv) (ins : list nat) (fs : list face) : Prop :=
  NoDup ins /\ (forall v, In v ins -> nb E <= v < nb E + ni E) /\
  length fs = nb E - 2 + 2 * length ins /\ Forall distinct3 fs /\ NoDup (all_sides fs) /\
  (forall a b, (In (a, b) (all_sides fs) /\ ~ In (b, a) (all_sides fs)) <-> border E a b) /\
  (forall v, used fs v <-> v < nb E \/ In v ins) /\
  (forall i j f g, nth_error fs i = Some f -> nth_error fs j = Some g -> i <> j -> ~ same_corners f g).

(** Why a point is left out: when its turn came, the triangles so far had it outside or within 1e-9 of their sides. *)
Definition outside (E : tenv) (ins : list nat) (v : nat) : Prop :=
  exists fs ins0, triangulation E ins0 fs /\ (forall u, In u ins0 <-> In u ins /\ u < v) /\
    forall f l, In f fs -> bary E v f = Some l -> Qle (min3 l) (1 # 1000000000).

(** Two boundary vertices on the same labelled edge. *)
Definition common_label (E : tenv) (a b : nat) : Prop :=
  exists x y l, nth_error (labels E) a = Some x /\ nth_error (labels E) b = Some y /\ a < nb E /\ b < nb E /\ (0 <= l)%Z /\
    (l = fst x \/ l = snd x) /\ (l = fst y \/ l = snd y).

(** Two triangles (x, y, c) and (y, x, d) whose common edge could still be flipped. *)
Definition turned (f : face) (x y c : nat) : Prop := f = (x, y, c) \/ f = (y, c, x) \/ f = (c, x, y).
Definition flippable (E : tenv) (fs : list face) (x y c d : nat) : Prop :=
  x < y /\ (exists f g, In f fs /\ In g fs /\ turned f x y c /\ turned g y x d) /\
  encroached E x y c d = true /\ positive E x d c = true /\ positive E d y c = true /\
  ~ common_label E c d /\ ~ In (c, d) (all_sides fs) /\ ~ In (d, c) (all_sides fs).
