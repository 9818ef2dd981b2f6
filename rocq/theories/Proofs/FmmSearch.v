From Coq Require Import List Arith NArith Reals Lia Lra.
From Verif Require Import Model.Outcome Model.Fmm Spec.Fmm Proofs.Fmm.
Import ListNotations.

(** Configurations in the order in which they are tried. *)
Definition key (c : config) : nat := 10 * c_order c + match c_d c with Some k => k | None => 0 end.

Lemma candidates_iff : forall h c, In c (candidates h) <->
  c_height c = h /\ Nat.Even (c_order c) /\ 8 <= c_order c <= 20 /\ match c_d c with None => c_order c < 12 | Some k => 12 <= c_order c /\ 7 <= k <= 9 end.
Proof.
  intros h [h' o d]. cbn [c_height c_order c_d]. split.
  - intros I. cbn in I.
    repeat match goal with H : _ \/ _ |- _ => destruct H as [H|H] end; try contradiction; injection I as <- <- <-;
      (split; [reflexivity|]; split; [apply Nat.even_spec; reflexivity|]; lia).
  - intros (-> & [m ->] & B & D). assert (m = 4 \/ m = 5 \/ m = 6 \/ m = 7 \/ m = 8 \/ m = 9 \/ m = 10) as M by lia.
    destruct d as [k|].
    + assert (k = 7 \/ k = 8 \/ k = 9) as K by lia.
      destruct M as [->|[->|[->|[->|[->|[->| ->]]]]]]; try lia; destruct K as [->|[->| ->]]; cbn; tauto.
    + destruct M as [->|[->|[->|[->|[->|[->| ->]]]]]]; try lia; cbn; tauto.
Qed.

Lemma earlier : forall P E ps a xs cs c, first_good P E ps a xs cs = Ok c ->
  (forall i j x y, nth_error cs i = Some x -> nth_error cs j = Some y -> key x < key y -> i < j) ->
  forall x, In x cs -> key x < key c -> (a < error P E ps x xs)%R.
Proof.
  induction cs as [|b cs IH]; intros c F S x I L; [destruct I|]. cbn in F. destruct (Rle_dec (error P E ps b xs) a) as [G|G].
  - injection F as ->. destruct (In_nth_error _ _ I) as [i Ei]. pose proof (S i 0 x c Ei eq_refl L). lia.
  - destruct I as [<-|I]; [lra|]. apply (IH c F); auto. intros i j u v Eu Ev K. specialize (S (Datatypes.S i) (Datatypes.S j) u v Eu Ev K). lia.
Qed.
Lemma candidates_sorted : forall h i j x y, nth_error (candidates h) i = Some x -> nth_error (candidates h) j = Some y -> key x < key y -> i < j.
Proof.
  intros h i j x y X Y K. destruct (Nat.lt_ge_cases i j) as [L|G]; [exact L|exfalso].
  assert (I : i < 17) by (change 17 with (length (candidates h)); apply nth_error_Some; congruence).
  assert (M : forall k, k < 17 -> forall c, nth_error (candidates h) k = Some c -> key c = nth k [80; 100; 127; 128; 129; 147; 148; 149; 167; 168; 169; 187; 188; 189; 207; 208; 209] 0).
  { clear. intros k L c C. do 17 (destruct k as [|k]; [cbn in C; injection C as <-; reflexivity|]). lia. }
  rewrite (M i I x X), (M j ltac:(lia) y Y) in K. clear - G I K.
  assert (T : forallb (fun i => forallb (fun j => negb (nth i [80; 100; 127; 128; 129; 147; 148; 149; 167; 168; 169; 187; 188; 189; 207; 208; 209] 0 <? nth j [80; 100; 127; 128; 129; 147; 148; 149; 167; 168; 169; 187; 188; 189; 207; 208; 209] 0)) (seq 0 (S i))) (seq 0 17) = true) by (vm_compute; reflexivity).
  rewrite forallb_forall in T. specialize (T i ltac:(apply in_seq; lia)). rewrite forallb_forall in T. specialize (T j ltac:(apply in_seq; lia)).
  apply Nat.ltb_lt in K. rewrite K in T. discriminate T.
Qed.

Theorem cheapest : forall P E, env_ok P E -> forall a ps h c xs, (0 < a)%R -> search P E (Some a) ps h = Ok c -> sample P E ps = Ok xs ->
  forall b, In b (candidates h) -> c_order b < c_order c \/ c_order b = c_order c /\ (exists k m, c_d b = Some k /\ c_d c = Some m /\ k < m) ->
  ~ forall x, In x xs -> within P E b ps a x.
Proof.
  intros P E EO a ps h c xs A S X b I O W. unfold search in S. destruct (Req_EM_T a 0); [lra|]. rewrite X in S. cbn [bind] in S.
  assert (Ic : In c (candidates h)).
  { pose proof (first_good_spec P E ps a xs (candidates h)) as F. rewrite S in F. apply F. }
  assert (K : key b < key c).
  { apply candidates_iff in I. apply candidates_iff in Ic. unfold key. destruct O as [O|(O & k & m & -> & -> & L)]; [|lia].
    destruct (c_d b), (c_d c); lia. }
  pose proof (earlier P E ps a xs _ c S (candidates_sorted h) b I K) as B. apply error_spec in W; [|lra]. lra.
Qed.
