From Coq Require Import List Arith Bool ZArith QArith Lia.
From Verif Require Import Model.Outcome Model.MeshDefects Model.AbstractMesh Model.Triangulation
  Spec.VertexClusterer Spec.Triangulation Proofs.Triangulation.
Import ListNotations.
Local Open Scope nat_scope.

(** C48: whatever the geometric predicates answer, the constructor never runs out of its storage and never fails the
    manifold check. If it finds an ear every time, the result is a triangulation of the polygon; the
    points left out were not inside any triangle. Otherwise there are no triangles. *)
Theorem C48_triangulation : forall E : tenv, 3 <= nb E -> match triangulate E with
  | Ok (true, fs, _) => exists ins, triangulation E ins fs /\ forall v, nb E <= v < nb E + ni E -> ~ In v ins -> outside E ins v
  | Ok (false, fs, _) => fs = []
  | Throw e => e = ExOutOfRange /\ labels E <> [] /\ length (labels E) < nb E
  | UB => False
  end.
Proof. intros E H. pose proof (triangulate_spec E H) as T. destruct (triangulate E) as [[[[] fs] x]|e|]; auto. apply T. Qed.
Print Assumptions C48_triangulation.

Theorem C48_too_few : forall E : tenv, nb E < 3 -> triangulate E = Throw ExInvalidArgument.
Proof. exact too_few. Qed.
Print Assumptions C48_too_few.

(** No edge inside the polygon joins two vertices of one labelled edge. *)
Theorem C48_labels : forall (E : tenv) fs x, 3 <= nb E -> triangulate E = Ok (true, fs, x) ->
  forall a b, In (a, b) (all_sides fs) -> border E a b \/ border E b a \/ ~ common_label E a b.
Proof. intros E fs x H EQ. pose proof (triangulate_spec E H) as T. rewrite EQ in T. apply T. Qed.
Print Assumptions C48_labels.

(** Unless the budget runs out, no edge inside the polygon can still be flipped. *)
Theorem C48_delaunay : forall (E : tenv) fs, 3 <= nb E -> triangulate E = Ok (true, fs, false) ->
  forall x y c d, flippable E fs x y c d -> border E x y \/ border E y x.
Proof. intros E fs H EQ. pose proof (triangulate_spec E H) as T. rewrite EQ in T. destruct T as (_ & _ & T). apply T. reflexivity. Qed.
Print Assumptions C48_delaunay.

(** Exact predicates for points with integer coordinates. *)
Definition area (p : nat -> Z * Z) (a b c : nat) : Z :=
  ((fst (p b) - fst (p a)) * (snd (p c) - snd (p a)) - (snd (p b) - snd (p a)) * (fst (p c) - fst (p a)))%Z.
Definition in_circle (p : nat -> Z * Z) (a b c d : nat) : bool :=
  let u i := (fst (p i) - fst (p d))%Z in
  let v i := (snd (p i) - snd (p d))%Z in
  let n i := (u i * u i + v i * v i)%Z in
  (0 <? u a * (v b * n c - v c * n b) - u b * (v a * n c - v c * n a) + u c * (v a * n b - v b * n a))%Z.
Definition of_points (b i : nat) (ps : list (Z * Z)) (ls : list (Z * Z)) (rv : bool) : tenv :=
  let p k := nth k ps (0, 0)%Z in
  mk_tenv b i rv (fun x y z => 0 <? area p x y z)%Z
    (fun v x y z => (0 <=? area p x y v) && (0 <=? area p y z v) && (0 <=? area p z x v))%Z
    (fun v f => let '(x, y, z) := f in
       match area p x y z with
       | Zpos t => Some (area p y z v # t, area p z x v # t, area p x y v # t)
       | _ => None
       end)
    (in_circle p) (fun x y z => 0 <? area p x y z)%Z ls.

(** An L-shaped polygon with a point on a diagonal, one inside and one outside. *)
Definition l_shape : tenv :=
  of_points 6 3 [(0, 0); (4, 0); (4, 2); (2, 2); (2, 4); (0, 4); (1, 1); (3, 1); (3, 3)]%Z [] false.
Example C48_example :
  exists fs, triangulate l_shape = Ok (true, fs, false) /\ length fs = 8 /\
    (exists ins, triangulation l_shape ins fs /\ length ins = 2) /\ ~ In (8, 0) (all_sides fs).
Proof.
  destruct (triangulate l_shape) as [[[s fs] x]|e|] eqn:EQ; [|vm_compute in EQ; discriminate|vm_compute in EQ; discriminate].
  pose proof EQ as EQ'. vm_compute in EQ'. injection EQ' as <- EF <-. exists fs. split; [reflexivity|]. rewrite <- EF. split; [reflexivity|]. split.
  - assert (3 <= nb l_shape) as H by (cbn; lia). pose proof (C48_triangulation l_shape H) as T. rewrite EQ in T. rewrite EF. destruct T as (ins & T & _).
    exists ins. split; [exact T|]. destruct T as (_ & _ & L & _). rewrite <- EF in L. cbn in L. lia.
  - vm_compute. intros X. repeat (destruct X as [X|X]; [discriminate|]). destruct X.
Qed.

(** A quadrilateral whose first diagonal is not Delaunay, and the same with labels that forbid the flip. *)
Definition kite (ls : list (Z * Z)) : tenv := of_points 4 0 [(0, 0); (3, -1); (6, 0); (3, 1)]%Z ls false.
Example C48_example_flip : triangulate (kite []) = Ok (true, [(3, 0, 1); (1, 2, 3)], false) /\
  triangulate (kite [(-1, -1); (7, -1); (-1, -1); (-1, 7)]%Z) = Ok (true, [(0, 1, 2); (0, 2, 3)], false) /\
  triangulate (kite [(7, -1)]%Z) = Throw ExOutOfRange.
Proof. vm_compute. auto. Qed.

(** A flat polygon: no ear is found, and the fan that is built is not handed out. *)
Example C48_example_flat : triangulate (of_points 5 0 [(0, 0); (1, 0); (2, 0); (3, 0); (4, 0)]%Z [] false) = Ok (false, [], false).
Proof. vm_compute. reflexivity. Qed.
