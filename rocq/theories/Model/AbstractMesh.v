From Coq Require Import List Arith Bool.
From Verif Require Import Model.Outcome Model.MeshDefects.
Import ListNotations.

(** AbstractMesh (src/isosurface/abstract_mesh.hpp). A halfedge 4 * fi + k is the pair (fi, k), k < 3.
    The arrays are functions with an explicit size: [m_cap] rows of faces_ (abstract_mesh.hpp:122, 129), [m_nf] used
    rows, and [m_nv] entries of vh_. Vertex indices are not negative. A thrown exception loses the state:
    no caller in the library catches it. *)

Definition halfedge := (nat * nat)%type.
(** Helper without code of its own. *)
Definition he_eqb (g h : halfedge) : bool := Nat.eqb (fst g) (fst h) && Nat.eqb (snd g) (snd h).
(** Helper without code of its own. *)
Definition upd_he {A : Type} (f : halfedge -> A) (h : halfedge) (x : A) (g : halfedge) : A :=
  if he_eqb g h then x else f g.

(** Within abstract_mesh.hpp:121-133. *)
Record mesh := Mesh {
  m_cap : nat; m_nf : nat; m_face : nat -> face; m_deleted : nat -> bool;
  m_opp : halfedge -> option halfedge; m_nv : nat; m_vh : nat -> list halfedge }.

(** Helper without code of its own. *)
Definition corner (f : face) (k : nat) : nat :=
  let '(a, b, c) := f in match k with 0 => a | 1 => b | _ => c end.
(** abstract_mesh.hpp:306-307. *)
Definition ccw (k : nat) : nat := match k with 2 => 0 | _ => S k end.
(** Within abstract_mesh.hpp:306-307. *)
Definition cw (k : nat) : nat := match k with 0 => 2 | S k' => k' end.

(** from (abstract_mesh.hpp:221), to (abstract_mesh.hpp:290), apex (abstract_mesh.hpp:142), next (abstract_mesh.hpp:267), prev (abstract_mesh.hpp:276). *)
Definition from (m : mesh) (h : halfedge) : nat := corner (m_face m (fst h)) (snd h).
(** Within abstract_mesh.hpp:221, abstract_mesh.hpp:290, abstract_mesh.hpp:142, abstract_mesh.hpp:267. *)
Definition to (m : mesh) (h : halfedge) : nat := corner (m_face m (fst h)) (ccw (snd h)).
(** Within abstract_mesh.hpp:221, abstract_mesh.hpp:290, abstract_mesh.hpp:142, abstract_mesh.hpp:267. *)
Definition apex (m : mesh) (h : halfedge) : nat := corner (m_face m (fst h)) (cw (snd h)).

(** halfedge_of (abstract_mesh.hpp:228-235). *)
Definition halfedge_of (m : mesh) (a b : nat) : option halfedge :=
  find (fun h => Nat.eqb (to m h) b) (if a <? m_nv m then m_vh m a else []).

(** Helper without code of its own. *)
Definition set_opp (m : mesh) (o : halfedge -> option halfedge) : mesh :=
  Mesh (m_cap m) (m_nf m) (m_face m) (m_deleted m) o (m_nv m) (m_vh m).
(** Helper without code of its own. *)
Definition set_vh (m : mesh) (nv : nat) (vh : nat -> list halfedge) : mesh :=
  Mesh (m_cap m) (m_nf m) (m_face m) (m_deleted m) (m_opp m) nv vh.
(** Helper without code of its own. *)
Definition set_row (m : mesh) (fi : nat) (f : face) : mesh :=
  Mesh (m_cap m) (m_nf m) (upd (m_face m) fi f) (m_deleted m) (m_opp m) (m_nv m) (m_vh m).
(** Helper without code of its own. *)
Definition set_deleted (m : mesh) (fi : nat) : mesh :=
  Mesh (m_cap m) (m_nf m) (m_face m) (upd (m_deleted m) fi true) (m_opp m) (m_nv m) (m_vh m).

(** register_face (abstract_mesh.hpp:309-333): the pairing loop, then the adjacency loop. *)
Definition pair_side (m : mesh) (fi k : nat) : outcome mesh :=
  let h := (fi, k) in
  let a := from m h in
  let b := to m h in
  match halfedge_of m a b with
  | Some _ => Throw ExRuntimeError
  | None =>
      match halfedge_of m b a with
      | Some o => Ok (set_opp m (upd_he (upd_he (m_opp m) h (Some o)) o (Some h)))
      | None => Ok (set_opp m (upd_he (m_opp m) h None))
      end
  end.
(** Within abstract_mesh.hpp:309-333. *)
Definition push_side (m : mesh) (fi k : nat) : mesh :=
  let v := from m (fi, k) in
  set_vh m (Nat.max (m_nv m) (S v)) (upd (m_vh m) v (m_vh m v ++ [(fi, k)])).
(** register_face (abstract_mesh.hpp:309-333). *)
Definition register_face (m : mesh) (fi : nat) : outcome mesh :=
  let* m := pair_side m fi 0 in
  let* m := pair_side m fi 1 in
  let* m := pair_side m fi 2 in
  Ok (push_side (push_side (push_side m fi 0) fi 1) fi 2).

(** unregister_face (abstract_mesh.hpp:341-351). *)
Definition drop_side (m : mesh) (fi k : nat) : outcome mesh :=
  let h := (fi, k) in
  let m := match m_opp m h with
           | Some o => set_opp m (upd_he (upd_he (m_opp m) o None) h None)
           | None => m
           end in
  let v := from m h in
  if v <? m_nv m then Ok (set_vh m (m_nv m) (upd (m_vh m) v (filter (fun g => negb (he_eqb g h)) (m_vh m v))))
  else Throw ExOutOfRange.
(** unregister_face (abstract_mesh.hpp:341-351). *)
Definition unregister_face (m : mesh) (fi : nat) : outcome mesh :=
  if fi <? m_nf m then
    let* m := drop_side m fi 0 in
    let* m := drop_side m fi 1 in
    drop_side m fi 2
  else UB.

(** set_face (abstract_mesh.hpp:335-339). *)
Definition set_face (m : mesh) (fi : nat) (f : face) : outcome mesh :=
  let* m := unregister_face m fi in
  register_face (set_row m fi f) fi.

(** Constructor from faces (abstract_mesh.hpp:121-126), for the remaining face numbers. *)
Fixpoint register_all (m : mesh) (fis : list nat) : outcome mesh :=
  match fis with
  | [] => Ok m
  | fi :: fis' => let* m := register_face m fi in register_all m fis'
  end.
(** Within abstract_mesh.hpp:121-126. *)
Definition construct (fs : list face) : outcome mesh :=
  register_all (Mesh (length fs) (length fs) (fun i => nth i fs (0, 0, 0)) (fun _ => false) (fun _ => None) 0 (fun _ => []))
               (seq 0 (length fs)).
(** abstract_mesh.hpp:129. *)
Definition empty (capacity : nat) : mesh :=
  Mesh capacity 0 (fun _ => (0, 0, 0)) (fun _ => false) (fun _ => None) 0 (fun _ => []).

(** add_face (abstract_mesh.hpp:131-138). *)
Definition add_face (m : mesh) (f : face) : outcome mesh :=
  let fi := m_nf m in
  if fi <? m_cap m then
    register_face (Mesh (m_cap m) (S fi) (upd (m_face m) fi f) (upd (m_deleted m) fi false) (m_opp m) (m_nv m) (m_vh m)) fi
  else UB.

(** collapse (abstract_mesh.hpp:147-169). [h] must be a side of a face; the second result are the moved faces. *)
Definition retarget (f : face) (drop keep : nat) : face :=
  let '(a, b, c) := f in
  let r x := if Nat.eqb x drop then keep else x in (r a, r b, r c).
(** Helper without code of its own. *)
Definition has_vertex (f : face) (v : nat) : bool := let '(a, b, c) := f in Nat.eqb a v || Nat.eqb b v || Nat.eqb c v.
(** Within abstract_mesh.hpp:147-169. *)
Fixpoint unregister_all (m : mesh) (fis : list nat) : outcome mesh :=
  match fis with
  | [] => Ok m
  | fi :: fis' => let* m := unregister_face m fi in unregister_all m fis'
  end.
(** Within abstract_mesh.hpp:147-169. *)
Fixpoint move_all (m : mesh) (drop keep : nat) (fis : list nat) (moved : list nat) : outcome (mesh * list nat) :=
  match fis with
  | [] => Ok (m, moved)
  | fi :: fis' =>
      let f := m_face m fi in
      if has_vertex f keep then move_all (set_deleted m fi) drop keep fis' moved
      else
        let* m := register_face (set_row m fi (retarget f drop keep)) fi in
        move_all m drop keep fis' (moved ++ [fi])
  end.
(** vertex_faces (abstract_mesh.hpp:292-296). *)
Definition vertex_faces (m : mesh) (v : nat) : list nat := map fst (if v <? m_nv m then m_vh m v else []).
(** collapse (abstract_mesh.hpp:147-169). *)
Definition collapse (m : mesh) (h : halfedge) : outcome (mesh * list nat) :=
  if fst h <? m_nf m then
    let drop := from m h in
    let keep := to m h in
    let star := vertex_faces m drop in
    let* m := unregister_all m star in
    move_all m drop keep star []
  else UB.

(** flip (abstract_mesh.hpp:189-205). A missing side has face -1, which is not a row. *)
Definition flip (m : mesh) (a b : nat) : outcome mesh :=
  match halfedge_of m a b, halfedge_of m b a with
  | Some h0, Some h1 =>
      let c := apex m h0 in
      let d := apex m h1 in
      let* m := unregister_face m (fst h0) in
      let* m := unregister_face m (fst h1) in
      let m := set_row (set_row m (fst h0) (c, a, d)) (fst h1) (d, b, c) in
      let* m := register_face m (fst h0) in
      register_face m (fst h1)
  | _, _ => UB
  end.

(** insert_in_face (abstract_mesh.hpp:242-247). *)
Definition insert_in_face (m : mesh) (fi v : nat) : outcome mesh :=
  if fi <? m_nf m then
    let f := m_face m fi in
    let* m := set_face m fi (corner f 0, corner f 1, v) in
    let* m := add_face m (corner f 1, corner f 2, v) in
    add_face m (corner f 2, corner f 0, v)
  else UB.

(** insert_on_edge (abstract_mesh.hpp:250-264). *)
Definition side_index (f : face) (a b : nat) : nat :=
  let hit k := (Nat.eqb (corner f k) a && Nat.eqb (corner f (ccw k)) b) ||
               (Nat.eqb (corner f k) b && Nat.eqb (corner f (ccw k)) a) in
  if hit 0 then 0 else if hit 1 then 1 else if hit 2 then 2 else 0.
(** Within abstract_mesh.hpp:250-264. *)
Definition split_side (m : mesh) (fi a b v : nat) : outcome mesh :=
  let f := m_face m fi in
  let i := side_index f a b in
  let* m := set_face m fi (corner f i, v, corner f (cw i)) in
  add_face m (v, corner f (ccw i), corner f (cw i)).
(** faces_of (abstract_mesh.hpp:177-186). *)
Definition faces_of (m : mesh) (a b : nat) : list nat :=
  match halfedge_of m a b with Some h => [fst h] | None => [] end ++
  match halfedge_of m b a with Some h => [fst h] | None => [] end.
(** Within abstract_mesh.hpp:250-264. *)
Fixpoint split_sides (m : mesh) (fis : list nat) (a b v : nat) : outcome mesh :=
  match fis with
  | [] => Ok m
  | fi :: fis' => let* m := split_side m fi a b v in split_sides m fis' a b v
  end.
(** insert_on_edge (abstract_mesh.hpp:250-264). *)
Definition insert_on_edge (m : mesh) (a b v : nat) : outcome mesh := split_sides m (faces_of m a b) a b v.

(** take_faces (abstract_mesh.hpp:278-287). *)
Definition take_faces (m : mesh) : list face :=
  map (m_face m) (filter (fun fi => negb (m_deleted m fi)) (seq 0 (m_nf m))).
