From Coq Require Import Reals Arith Lia Lra.
From Verif Require Import Proofs.LinAlg Model.LinAlg.
Local Open Scope R_scope.

(** A square matrix has a kernel or takes every value. *)
Definition swap_rows (r s i : nat) : nat := if Nat.eqb i r then s else if Nat.eqb i s then r else i.
Lemma swap_invol : forall r s i, swap_rows r s (swap_rows r s i) = i.
Proof.
  intros. unfold swap_rows. destruct (Nat.eqb_spec i r) as [E|E]; [|destruct (Nat.eqb_spec i s) as [F|F]].
  - destruct (Nat.eqb_spec s r); [congruence|]. rewrite Nat.eqb_refl. auto.
  - rewrite Nat.eqb_refl. auto.
  - destruct (Nat.eqb_spec i r); [congruence|]. destruct (Nat.eqb_spec i s); congruence.
Qed.
Lemma swap_lt : forall r s i n, (r < n)%nat -> (s < n)%nat -> (i < n)%nat -> (swap_rows r s i < n)%nat.
Proof. intros. unfold swap_rows. repeat match goal with |- context [Nat.eqb ?a ?b] => destruct (Nat.eqb_spec a b) end; lia. Qed.
Lemma kernel_or_onto : forall n a,
  (exists w, (forall r, (r < n)%nat -> mat_vec n a w r = 0) /\ exists k, (k < n)%nat /\ w k <> 0) \/
  (forall b, exists w, forall r, (r < n)%nat -> mat_vec n a w r = b r).
Proof.
  induction n; intros a. { right. intros b. exists (fun _ => 0). intros; lia. }
  destruct (Classical_Prop.classic (exists r, (r < S n)%nat /\ a r n <> 0)) as [(r & L & N)|Z].
  2:{ left. exists (fun k => if Nat.eqb k n then 1 else 0). split.
      - intros r L. unfold mat_vec. rewrite (rsum_single (S n) n); [|lia|].
        + rewrite Nat.eqb_refl. destruct (Req_EM_T (a r n) 0) as [E|E]; [rewrite E; ring|]. exfalso. apply Z. eauto.
        + intros i I M. destruct (Nat.eqb_spec i n); [contradiction|]. ring.
      - exists n. split; [lia|]. rewrite Nat.eqb_refl. lra. }
  set (s := swap_rows r n). set (b' := fun i j => a (s i) j).
  assert (BN : b' n n <> 0). { unfold b', s, swap_rows. rewrite Nat.eqb_refl. destruct (Nat.eqb_spec n r) as [-> |]; auto. }
  set (q := b' n n) in *.
  assert (SL : forall i, (i < S n)%nat -> (s i < S n)%nat) by (intros; apply swap_lt; lia).
  assert (ST : forall w v, (forall i, (i < S n)%nat -> mat_vec (S n) b' w i = v (s i)) -> forall i, (i < S n)%nat -> mat_vec (S n) a w i = v i).
  { intros w v H i I. specialize (H (s i) (SL i I)). unfold mat_vec, b', s in H. rewrite swap_invol in H. exact H. }
  set (c := fun i j => b' i j - b' i n / q * b' n j).
  assert (EL : forall w i, mat_vec n c w i = rsum n (fun j => b' i j * w j) - b' i n / q * rsum n (fun j => b' n j * w j)).
  { intros w i. unfold mat_vec. rewrite <- rsum_scal, <- rsum_minus. apply rsum_ext. intros. unfold c. ring. }
  set (ext := fun (w : nat -> R) y k => if Nat.eqb k n then y else w k).
  assert (EX : forall w y i, mat_vec (S n) b' (ext w y) i = rsum n (fun j => b' i j * w j) + b' i n * y).
  { intros w y i. unfold mat_vec. cbn [rsum]. unfold ext at 2. rewrite Nat.eqb_refl. f_equal. apply rsum_ext. intros k K. unfold ext.
    destruct (Nat.eqb_spec k n); [lia|reflexivity]. }
  destruct (IHn c) as [(w & W & k & K & NZ)|O].
  - left. exists (ext w (- (rsum n (fun j => b' n j * w j)) / q)). split.
    + apply (ST _ (fun _ => 0)). intros i I. rewrite EX. destruct (Nat.eq_dec i n) as [-> |M].
      * fold q. field. exact BN.
      * specialize (W i ltac:(lia)). rewrite EL in W.
        replace (b' i n * (- rsum n (fun j => b' n j * w j) / q)) with (- (b' i n / q * rsum n (fun j => b' n j * w j))) by (field; exact BN). lra.
    + exists k. split; [lia|]. unfold ext. destruct (Nat.eqb_spec k n); [lia|exact NZ].
  - right. intros b. set (v := fun i => b (s i)). destruct (O (fun i => v i - b' i n / q * v n)) as (w & W).
    exists (ext w ((v n - rsum n (fun j => b' n j * w j)) / q)). apply ST. intros i I. fold (v i). rewrite EX. destruct (Nat.eq_dec i n) as [-> |M].
    + fold q. field. exact BN.
    + specialize (W i ltac:(lia)). rewrite EL in W.
      replace (b' i n * ((v n - rsum n (fun j => b' n j * w j)) / q)) with (b' i n / q * v n - b' i n / q * rsum n (fun j => b' n j * w j)) by (field; exact BN). lra.
Qed.
