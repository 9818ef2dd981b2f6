From Coq Require Import List Arith Bool.
From Verif Require Import Model.Outcome Model.RbfHandles.
Import ListNotations.

(** The same programs with variables that hold values: a variable is not constructed (None), empty (Some None) or has a value. There are no
    objects, so nothing can be shared, leaked or deleted twice. Only the programs and what they see are taken from the model. *)
Section Values.
Variable V : Type.
Variable same : V -> V -> bool.

Definition store := nat -> option (option V).
Definition put (st : store) (i : nat) (x : option (option V)) : store := fun j => if j =? i then x else st j.
Definition declare (st : store) (i : nat) (x : option V) : outcome (store * list (seen V)) :=
  match st i with Some _ => UB | None => Ok (put st i (Some x), []) end.
Definition look (st : store) (i : nat) : outcome V := match st i with Some (Some v) => Ok v | _ => UB end.
Definition alive (st : store) (i : nat) : outcome (option V) := match st i with Some x => Ok x | None => UB end.

Definition value_step (st : store) (o : op V) : outcome (store * list (seen V)) :=
  match o with
  | Make _ i v => declare st i (Some v)
  | Default _ i => declare st i None
  | CopyNew _ i j => let* x := alive st j in declare st i x
  | MoveNew _ i j => let* x := alive st j in let* r := declare st i x in Ok (put (fst r) j (Some None), [])
  | CopyAssign _ i j =>
      let* _ := alive st i in let* _ := alive st j in
      if i =? j then Ok (st, []) else let* v := look st j in Ok (put st i (Some (Some v)), [])
  | MoveAssign _ i j => let* _ := alive st i in let* x := alive st j in Ok (put (put st j (Some None)) i (Some x), [])
  | Change _ i f => let* v := look st i in match f v with Ok v' => Ok (put st i (Some (Some v')), []) | Throw e => Ok (st, [Caught V e]) | UB => UB end
  | Read _ i => let* v := look st i in Ok (st, [Saw V v])
  | Compare _ i j =>
      let* _ := alive st i in let* _ := alive st j in
      if i =? j then Ok (st, [Told V true]) else let* v := look st i in let* w := look st j in Ok (st, [Told V (same v w)])
  | Destroy _ i => let* _ := alive st i in Ok (put st i None, [])
  end.
Fixpoint value_run (st : store) (os : list (op V)) : outcome (store * list (seen V)) :=
  match os with
  | [] => Ok (st, [])
  | o :: os' => let* r := value_step st o in let* t := value_run (fst r) os' in Ok (fst t, snd r ++ snd t)
  end.

(** What the variables of a state with objects stand for. *)
Definition values (s : state V) : store :=
  fun i => match vars V s i with None => None | Some None => Some None | Some (Some a) => Some (objects V s a) end.
(** Every object belongs to exactly one variable, and every pointer leads to an object. *)
Definition owned (s : state V) : Prop :=
  (forall i a, vars V s i = Some (Some a) -> objects V s a <> None) /\
  forall a, objects V s a <> None -> exists i, vars V s i = Some (Some a) /\ forall j, vars V s j = Some (Some a) -> j = i.

(** The operation may change the variable [k]. *)
Definition writes (o : op V) (k : nat) : Prop :=
  match o with
  | Make _ i _ | Default _ i | CopyNew _ i _ | CopyAssign _ i _ | Change _ i _ | Destroy _ i => i = k
  | MoveNew _ i j | MoveAssign _ i j => i = k \/ j = k
  | Read _ _ | Compare _ _ _ => False
  end.
End Values.
