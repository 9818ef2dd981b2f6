From Coq Require Import Reals List Arith.
From Verif Require Import Model.LinAlg Model.Operator Proofs.LinAlg.
Import ListNotations.
Local Open Scope R_scope.

Section Spec.
Variable V : Type.
Variable dif : V -> V -> V.
Variable dim : nat.
Variable rbfs : list (rbf V).
Variable nugget : R.
Variable l : nat.

(** The block matrix [ phi + nugget, -grad ; grad, -hessian ] between the rows of [t] and the rows of [s], without the nugget. *)
Definition kernel (s t : nodes V) (r c : nat) : R :=
  lsum rbfs (fun f =>
    if (r <? mu V t)%nat then
      if (c <? mu V s)%nat then ev V f (dif (pt V t r) (pt V s c))
      else - gr V f (dif (pt V t r) (gpt V s ((c - mu V s) / dim))) ((c - mu V s) mod dim)
    else
      if (c <? mu V s)%nat then gr V f (dif (gpt V t ((r - mu V t) / dim)) (pt V s c)) ((r - mu V t) mod dim)
      else - he V f (dif (gpt V t ((r - mu V t) / dim)) (gpt V s ((c - mu V s) / dim))) ((c - mu V s) mod dim) ((r - mu V t) mod dim)).
Definition nugget_at (n : nodes V) (r c : nat) : R := if Nat.eqb r c then if (r <? mu V n)%nat then nugget else 0 else 0.
(** The whole system with the polynomial rows and columns. *)
Definition system (n : nodes V) (p : nat -> nat -> R) (r c : nat) : R :=
  let m := size V dim n in
  if (r <? m)%nat then if (c <? m)%nat then kernel n n r c + nugget_at n r c else p r (c - m)%nat
  else if (c <? m)%nat then p c (r - m)%nat else 0.

(** An even function with odd gradient and even symmetric Hessian, up to differences of points. *)
Definition even_rbf (f : rbf V) : Prop := forall x y,
  ev V f (dif x y) = ev V f (dif y x) /\
  (forall e, (e < dim)%nat -> gr V f (dif x y) e = - gr V f (dif y x) e) /\
  (forall c e, (c < dim)%nat -> (e < dim)%nat -> he V f (dif x y) c e = he V f (dif y x) c e /\ he V f (dif x y) c e = he V f (dif x y) e c).

(** Every RBF has a schedule and every row a thread. *)
Definition schedule_ok (m : nat) (s : list nat * (nat -> nat)) : Prop :=
  NoDup (fst s) /\ forall r, (r < m)%nat -> In (snd s r) (fst s).
Definition schedules_ok (m : nat) (ss : list (list nat * (nat -> nat))) : Prop :=
  length ss = length rbfs /\ Forall (schedule_ok m) ss.

(** Evaluators that return the potentials of an RBF. *)
Definition exact_fast (n : nodes V) (f : rbf V) (e : fast) : Prop := forall w,
  (forall i, (i < mu V n)%nat -> fa e w i = rsum (mu V n) (fun j => w j * ev V f (dif (pt V n i) (pt V n j))) /\
     ff e w i = rsum (sigma V n) (fun j => rsum dim (fun c => w (dim * j + c)%nat * - gr V f (dif (pt V n i) (gpt V n j)) c))) /\
  (forall i c, (i < sigma V n)%nat -> (c < dim)%nat ->
     fft e w (dim * i + c)%nat = rsum (mu V n) (fun j => w j * gr V f (dif (gpt V n i) (pt V n j)) c) /\
     fh e w (dim * i + c)%nat =
       rsum (sigma V n) (fun j => rsum dim (fun b => w (dim * j + b)%nat * - he V f (dif (gpt V n i) (gpt V n j)) b c))).
End Spec.
