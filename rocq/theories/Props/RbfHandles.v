From Coq Require Import List Arith Bool.
From Verif Require Import Model.Outcome Model.RbfHandles Spec.RbfHandles Proofs.RbfHandles.
Import ListNotations.

(** Whatever a program does, it sees what it would see with plain values, and it is undefined just when the program with values is. Every
    object belongs to exactly one variable. *)
Theorem C86_values : forall V same os,
  match value_run V same (fun _ => None) os with
  | Ok (st, l) => exists s, run V same (start V) os = Ok (s, l) /\ (forall i, values V s i = st i) /\ owned V s
  | Throw e => run V same (start V) os = Throw e
  | UB => run V same (start V) os = UB
  end.
Proof. exact handles_are_values. Qed.
Print Assumptions C86_values.

(** A variable keeps its value while only other ones are written, copied from it or not. *)
Theorem C86_others : forall V same os ps s l s' l' k, run V same (start V) os = Ok (s, l) -> run V same s ps = Ok (s', l') ->
  Forall (fun o => ~ writes V o k) ps -> values V s' k = values V s k.
Proof. exact others_kept. Qed.
Print Assumptions C86_others.

(** A copy has the value of its source and an object of its own; an empty source gives an empty copy. *)
Theorem C86_copy : forall V same os s l i j x, run V same (start V) os = Ok (s, l) -> vars V s i = None -> vars V s j = Some x ->
  exists s', copy_new V s i j = Ok s' /\ values V s' i = values V s j /\ values V s' j = values V s j /\
    forall a b, vars V s' i = Some (Some a) -> vars V s' j = Some (Some b) -> a <> b.
Proof. exact copy_constructs. Qed.
Print Assumptions C86_copy.

(** Once all variables are gone, no object is left. *)
Theorem C86_no_leak : forall V same os s l, run V same (start V) os = Ok (s, l) -> (forall i, vars V s i = None) -> forall a, objects V s a = None.
Proof. exact no_leak. Qed.
Print Assumptions C86_no_leak.

(** Assigning from an empty variable, one just moved from for example, follows a null pointer; constructing from it does not. *)
Theorem C86_empty_assign_refuted : ~ forall V same os s l i j x y, run V same (start V) os = Ok (s, l) -> vars V s i = Some x -> vars V s j = Some y ->
  exists s', copy_assign V s i j = Ok s'.
Proof.
  intros H. destruct (H nat Nat.eqb [Make nat 0 5; MoveNew nat 1 0] _ _ 1 0 _ _ eq_refl eq_refl eq_refl) as (s' & E). discriminate E.
Qed.
Print Assumptions C86_empty_assign_refuted.

(** A number that is not equal to itself: the copy differs from its source, which equals itself. *)
Theorem C86_copy_equal_refuted : ~ forall V same os s l i j v, run V same (start V) (os ++ [CopyNew V i j]) = Ok (s, l) -> values V s j = Some (Some v) ->
  compare V same s j j = Ok true /\ compare V same s i j = Ok true.
Proof.
  intros H. destruct (H nat (fun _ _ => false) [Make nat 0 5] _ _ 1 0 5 eq_refl eq_refl) as [_ E]. discriminate E.
Qed.
Print Assumptions C86_copy_equal_refuted.

(** Two copies go different ways; a failed change leaves its variable alone; moving empties the source, and assigning a variable to itself does not. *)
Example C86_example :
  match run nat Nat.eqb (start nat) [Make nat 0 5; CopyNew nat 1 0; Change nat 1 (fun v => Ok (v + 1)); Read nat 0; Read nat 1; Change nat 0 (fun _ => Throw ExInvalidArgument);
    Compare nat 0 1; CopyAssign nat 1 0; Compare nat 0 1; MoveAssign nat 0 0; MoveNew nat 2 0; Read nat 2; Destroy nat 1] with
  | Ok (_, l) => l = [Saw nat 5; Saw nat 6; Caught nat ExInvalidArgument; Told nat false; Told nat true; Saw nat 5]
  | _ => False
  end.
Proof. vm_compute. reflexivity. Qed.
