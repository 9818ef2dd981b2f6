From Coq Require Import List Arith Bool.
From Verif Require Import Model.Outcome.
Import ListNotations.

(** * Copies and moves of Rbf (include/polatory/rbf/rbf.hpp:12-105)

    An Rbf is a handle that owns an object of a class derived from RbfBase through a std::unique_ptr. Objects live in a heap; variables hold
    nothing (not constructed), or a pointer that may be null. [V] is what an object stores: its class, params_ and aniso_
    (rbf_base.hpp:97-99). Deleting an object that is not there, using a variable that is not constructed, constructing one that is, and
    following a null pointer are undefined. Allocation does not fail. *)
Section Handles.
Variable V : Type.
(** The comparison in operator== (rbf.hpp:92-93). *)
Variable same : V -> V -> bool.

(** Helper without code of its own. *)
Definition upd {A : Type} (f : nat -> A) (i : nat) (x : A) : nat -> A := fun j => if j =? i then x else f j.

(** rbf_ of each variable (line 104 of rbf.hpp), the objects, and the next address. *)
Record state := State { objects : nat -> option V; next : nat; vars : nat -> option (option nat) }.
(** Helper without code of its own. *)
Definition start : state := State (fun _ => None) 0 (fun _ => None).

(** make_unique in the constructor of an RBF class and in clone (rbf.hpp:116-117; e.g. cov_cubic.hpp:32): a new object with the same members. *)
Definition allocate (s : state) (v : V) : nat * state := (next s, State (upd (objects s) (next s) (Some v)) (S (next s)) (vars s)).
(** The deleter of a unique_ptr. *)
Definition release (s : state) (p : option nat) : outcome state :=
  match p with
  | None => Ok s
  | Some a => match objects s a with None => UB | Some _ => Ok (State (upd (objects s) a None) (next s) (vars s)) end
  end.
(** Helper without code of its own. *)
Definition set_var (s : state) (i : nat) (x : option (option nat)) : state := State (objects s) (next s) (upd (vars s) i x).
(** A constructed variable. *)
Definition pointer (s : state) (i : nat) : outcome (option nat) := match vars s i with None => UB | Some p => Ok p end.
(** The uses of rbf_-> (rbf.hpp:41-85). *)
Definition deref (s : state) (p : option nat) : outcome V :=
  match p with None => UB | Some a => match objects s a with None => UB | Some v => Ok v end end.
(** Declaring a variable: it must not be constructed yet. *)
Definition construct (s : state) (i : nat) (p : option nat) : outcome state :=
  match vars s i with Some _ => UB | None => Ok (set_var s i (Some p)) end.

(** What a program does with its variables. *)
Inductive op :=
| Make (i : nat) (v : V)
| Default (i : nat)
| CopyNew (i j : nat)
| MoveNew (i j : nat)
| CopyAssign (i j : nat)
| MoveAssign (i j : nat)
| Change (i : nat) (f : V -> outcome V)
| Read (i : nat)
| Compare (i j : nat)
| Destroy (i : nat).
(** What it sees. *)
Inductive seen := Saw (v : V) | Caught (e : exn) | Told (b : bool).

(** Copy constructor (rbf.hpp:24-26). *)
Definition copy_new (s : state) (i j : nat) : outcome state :=
  let* p := pointer s j in
  match p with
  | None => construct s i None
  | Some _ => let* v := deref s p in let (a, s') := allocate s v in construct s' i (Some a)
  end.
(** Move constructor (line 28 of rbf.hpp). *)
Definition move_new (s : state) (i j : nat) : outcome state :=
  let* p := pointer s j in
  let* s' := construct s i p in
  Ok (set_var s' j (Some None)).
(** Copy assignment (rbf.hpp:30-37): the clone is made before the old object is deleted. *)
Definition copy_assign (s : state) (i j : nat) : outcome state :=
  let* old := pointer s i in
  let* p := pointer s j in
  if i =? j then Ok s else
  let* v := deref s p in
  let (a, s') := allocate s v in
  release (set_var s' i (Some (Some a))) old.
(** Move assignment (line 39 of rbf.hpp): reset(other.release()), which leaves a variable assigned to itself alone. *)
Definition move_assign (s : state) (i j : nat) : outcome state :=
  let* _ := pointer s i in
  let* p := pointer s j in
  let s1 := set_var s j (Some None) in
  let* old := pointer s1 i in
  release (set_var s1 i (Some p)) old.
(** set_parameters, set_anisotropy (rbf.hpp:79-81; rbf_base.hpp:73-87): the check comes before the assignment. *)
Definition change (s : state) (i : nat) (f : V -> outcome V) : outcome (state * list seen) :=
  let* p := pointer s i in
  let* v := deref s p in
  match p, f v with
  | Some a, Ok v' => Ok (State (upd (objects s) a (Some v')) (next s) (vars s), [])
  | _, Throw e => Ok (s, [Caught e])
  | _, _ => UB
  end.
(** The other members: they only look (rbf.hpp:41-77, 83-85). *)
Definition read (s : state) (i : nat) : outcome V := let* p := pointer s i in deref s p.
(** operator== (rbf.hpp:87-94). *)
Definition compare (s : state) (i j : nat) : outcome bool :=
  let* p := pointer s i in
  let* q := pointer s j in
  if i =? j then Ok true else
  let* v := deref s p in
  let* w := deref s q in
  Ok (same v w).
(** Destructor (line 22 of rbf.hpp). *)
Definition destroy (s : state) (i : nat) : outcome state :=
  let* p := pointer s i in release (set_var s i None) p.

(** One step of a program. *)
Definition step (s : state) (o : op) : outcome (state * list seen) :=
  match o with
  | Make i v => let (a, s') := allocate s v in let* r := construct s' i (Some a) in Ok (r, [])
  | Default i => let* r := construct s i None in Ok (r, [])
  | CopyNew i j => let* r := copy_new s i j in Ok (r, [])
  | MoveNew i j => let* r := move_new s i j in Ok (r, [])
  | CopyAssign i j => let* r := copy_assign s i j in Ok (r, [])
  | MoveAssign i j => let* r := move_assign s i j in Ok (r, [])
  | Change i f => change s i f
  | Read i => let* v := read s i in Ok (s, [Saw v])
  | Compare i j => let* b := compare s i j in Ok (s, [Told b])
  | Destroy i => let* r := destroy s i in Ok (r, [])
  end.
(** Helper without code of its own. *)
Fixpoint run (s : state) (os : list op) : outcome (state * list seen) :=
  match os with
  | [] => Ok (s, [])
  | o :: os' => let* r := step s o in let* t := run (fst r) os' in Ok (fst t, snd r ++ snd t)
  end.
End Handles.
