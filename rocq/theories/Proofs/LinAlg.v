From Coq Require Import Reals Arith Lia Lra List Permutation.
From Verif Require Import Model.LinAlg.
Import ListNotations.
Local Open Scope R_scope.

Lemma rsum_ext : forall n f g, (forall i, (i < n)%nat -> f i = g i) -> rsum n f = rsum n g.
Proof. induction n as [|n IH]; intros f g H; cbn; auto. rewrite (IH f g), H; auto. Qed.
Lemma rsum_0 : forall n f, (forall i, (i < n)%nat -> f i = 0) -> rsum n f = 0.
Proof. induction n as [|n IH]; intros f H; cbn; auto. rewrite (IH f), H; auto. lra. Qed.
Lemma rsum_plus : forall n f g, rsum n (fun i => f i + g i) = rsum n f + rsum n g.
Proof. induction n as [|n IH]; intros f g; cbn; [lra|]. rewrite IH. lra. Qed.
Lemma rsum_minus : forall n f g, rsum n (fun i => f i - g i) = rsum n f - rsum n g.
Proof. induction n as [|n IH]; intros f g; cbn; [lra|]. rewrite IH. lra. Qed.
Lemma rsum_scal : forall n c f, rsum n (fun i => c * f i) = c * rsum n f.
Proof. induction n as [|n IH]; intros c f; cbn; [lra|]. rewrite IH. lra. Qed.
Lemma rsum_scal_r : forall n c f, rsum n (fun i => f i * c) = rsum n f * c.
Proof. induction n as [|n IH]; intros c f; cbn; [lra|]. rewrite IH. lra. Qed.
Lemma rsum_opp : forall n f, rsum n (fun i => - f i) = - rsum n f.
Proof. induction n as [|n IH]; intros f; cbn; [lra|]. rewrite IH. lra. Qed.
Lemma rsum_swap : forall n m f, rsum n (fun i => rsum m (fun j => f i j)) = rsum m (fun j => rsum n (fun i => f i j)).
Proof.
  induction n as [|n IH]; intros m f; cbn.
  - rewrite rsum_0; auto.
  - rewrite IH, <- rsum_plus. reflexivity.
Qed.
Lemma rsum_app : forall n m f, rsum (n + m) f = rsum n f + rsum m (fun j => f (n + j)%nat).
Proof.
  intros n m f. induction m as [|m IH]; cbn.
  - rewrite Nat.add_0_r. lra.
  - rewrite Nat.add_succ_r. cbn. rewrite IH. lra.
Qed.
Lemma rsum_single : forall n k f, (k < n)%nat -> (forall i, (i < n)%nat -> i <> k -> f i = 0) -> rsum n f = f k.
Proof.
  induction n as [|n IH]; intros k f K H; [lia|]. cbn. destruct (Nat.eq_dec k n) as [->|E].
  - rewrite rsum_0; [lra|]. intros i I. apply H; lia.
  - rewrite (IH k); [|lia|intros i I E'; apply H; lia]. rewrite (H n); [lra|lia|lia].
Qed.
Lemma rsum_mul : forall n d f, rsum (d * n) f = rsum n (fun j => rsum d (fun e => f (d * j + e)%nat)).
Proof.
  intros n d f. induction n as [|n IH]; [rewrite Nat.mul_0_r; reflexivity|]. rewrite Nat.mul_succ_r, rsum_app, IH. reflexivity.
Qed.
Lemma rsum_le : forall n f g, (forall i, (i < n)%nat -> f i <= g i) -> rsum n f <= rsum n g.
Proof. induction n as [|n IH]; intros f g H; cbn; [lra|]. pose proof (IH f g ltac:(auto)). pose proof (H n ltac:(auto)). lra. Qed.
Lemma rsum_pos : forall n f, (forall i, (i < n)%nat -> 0 <= f i) -> 0 <= rsum n f.
Proof. intros n f H. rewrite <- (rsum_0 n (fun _ => 0)); auto. apply rsum_le. auto. Qed.

(** Sums over lists. *)
Fixpoint lsum {A : Type} (l : list A) (f : A -> R) : R := match l with [] => 0 | x :: l' => f x + lsum l' f end.
Lemma lsum_app : forall A (a b : list A) f, lsum (a ++ b) f = lsum a f + lsum b f.
Proof. induction a as [|x a IH]; intros b f; cbn; [lra|]. rewrite IH. lra. Qed.
Lemma lsum_perm : forall A (a b : list A) f, Permutation a b -> lsum a f = lsum b f.
Proof. intros A a b f P. induction P; cbn; lra. Qed.
Lemma lsum_ext : forall A (l : list A) f g, (forall x, In x l -> f x = g x) -> lsum l f = lsum l g.
Proof. induction l as [|x l IH]; intros f g H; cbn; auto. rewrite (IH f g), H; cbn; auto. intros y Y. apply H. right. auto. Qed.
Lemma lsum_map : forall A B (h : A -> B) (l : list A) f, lsum (map h l) f = lsum l (fun x => f (h x)).
Proof. induction l as [|x l IH]; intros f; cbn; auto. rewrite IH. auto. Qed.
Lemma lsum_seq : forall n f, lsum (seq 0 n) f = rsum n f.
Proof. induction n as [|n IH]; intros f; auto. rewrite seq_S, lsum_app, IH. cbn. lra. Qed.
Lemma lsum_nth : forall A (l : list A) d f, lsum l f = rsum (length l) (fun k => f (nth k l d)).
Proof.
  intros A l d f. rewrite <- lsum_seq. rewrite <- (lsum_map _ _ (fun k => nth k l d)). f_equal. symmetry.
  clear f. induction l as [|x l IH]; cbn; auto. f_equal. rewrite <- seq_shift, map_map. auto.
Qed.
Lemma lsum_flat_map : forall A B (h : A -> list B) l f, lsum (flat_map h l) f = lsum l (fun x => lsum (h x) f).
Proof. induction l as [|x l IH]; intros f; cbn; auto. rewrite lsum_app, IH. auto. Qed.
