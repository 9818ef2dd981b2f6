From Coq Require Import Reals List Arith Lia Lra Permutation.
From Verif Require Import Model.LinAlg Model.RasPreconditioner Proofs.LinAlg Proofs.Grid Spec.Grid Spec.RasPreconditioner Proofs.Orthonormalize.
Import ListNotations.
Local Open Scope R_scope.

Section Ras.
Variable n l n_levels : nat.
Variable lev : nat -> list nat.
Variable kern p_full : nat -> nat -> R.
Variable solve : nat -> (nat -> R) -> nat -> R.
Notation app := (applied n l kern p_full).
Notation fitted := (fit n l lev kern p_full).
Notation pq := (p_ n l p_full).
Notation ortho := (orthogonalize n l kern p_full).
Notation exec := (run_step n l lev kern p_full solve).
Notation runs := (run n l lev kern p_full solve).
Notation logs := (solves_of n l lev kern p_full solve).

Lemma gathered_lsum : forall rows f, gathered rows f = lsum rows f.
Proof. induction rows as [|j rows IH]; intros f; cbn; auto. rewrite IH. auto. Qed.
Lemma applied_plus : forall w x i, app (fun j => w j + x j) i = app w i + app x i.
Proof.
  intros w x i. unfold applied, mat_vec. rewrite (rsum_ext n _ (fun j => kern i j * w j + kern i j * x j)) by (intros; lra).
  rewrite (rsum_ext l _ (fun k => p_full i k * w (n + k)%nat + p_full i k * x (n + k)%nat)) by (intros; lra). rewrite !rsum_plus. lra.
Qed.

(** ** Residuals *)
Section Residuals.
Hypothesis NL : (1 < n_levels)%nat.
Hypothesis NEST : nested n n_levels lev.
Hypothesis LOCAL : local_solve n n_levels lev solve.
Variable v : nat -> R.
Notation true_on := (true_on n l kern p_full v).
Notation sound := (sound n l n_levels lev kern p_full v).

Lemma fit_applied : forall k r i, (k < n_levels)%nat -> fitted k (solve k r) i = app (solve k r) i.
Proof.
  intros k r i K. unfold fit, applied. f_equal. rewrite gathered_lsum. unfold mat_vec. rewrite <- lsum_seq.
  destruct (proj1 NEST k K) as [ND RG]. set (h := fun j => existsb (Nat.eqb j) (lev k)).
  assert (forall j, h j = true <-> In j (lev k)) as H.
  { intros j. unfold h. rewrite existsb_exists. split; [intros (x & X & E); apply Nat.eqb_eq in E; subst; auto|intros J; exists j; rewrite Nat.eqb_refl; auto]. }
  rewrite (lsum_perm _ (seq 0 n) _ _ (split_perm (seq 0 n) h)), lsum_app.
  rewrite (lsum_ext _ (filter (fun x => negb (h x)) _) _ (fun _ => 0)).
  2:{ intros j J. apply filter_In in J. destruct J as [J NH]. apply in_seq in J. rewrite LOCAL; auto; [lra|lia|]. intros X. apply H in X. rewrite X in NH. discriminate. }
  assert (forall (l0 : list nat), lsum l0 (fun _ => 0) = 0) as -> by (induction l0 as [|x l0 IH]; cbn; [auto|rewrite IH; lra]).
  rewrite Rplus_0_r. apply lsum_perm. apply NoDup_Permutation; [auto|apply NoDup_filter, seq_NoDup|].
  intros j. rewrite filter_In, H, in_seq. split; [|tauto]. intros J. split; auto. pose proof (RG j J). lia.
Qed.
Lemma solve_true : forall k t st rows, (k < n_levels)%nat -> true_on rows st -> incl (lev t) rows -> true_on (lev t) (exec (Solve k (Some t)) st).
Proof.
  intros k t [tot res] rows K T IN i I. cbn [run_step fst snd]. unfold update.
  assert (existsb (Nat.eqb i) (lev t) = true) as -> by (apply existsb_exists; exists i; rewrite Nat.eqb_refl; auto).
  rewrite fit_applied by auto. rewrite applied_plus. pose proof (T i (IN i I)) as E. cbn [fst snd] in E. rewrite E. lra.
Qed.
Lemma applied_ortho : forall w res i, app (fst (ortho (w, res))) i = app w i - mat_vec l (ap n l kern p_full) (fun k => rsum n (fun j => pq j k * w j)) i.
Proof.
  intros w res i. unfold orthogonalize. cbn [fst]. set (d := fun k => rsum n (fun j => pq j k * w j)). unfold applied.
  assert (mat_vec l p_full (fun k => if (n + k <? n)%nat then w (n + k)%nat - mat_vec l pq d (n + k) else w (n + k)%nat) i = mat_vec l p_full (fun k => w (n + k)%nat) i) as ->.
  { apply rsum_ext. intros k K. destruct (Nat.ltb_spec (n + k) n); [lia|auto]. }
  assert (mat_vec n kern (fun i0 => if (i0 <? n)%nat then w i0 - mat_vec l pq d i0 else w i0) i = mat_vec n kern w i - mat_vec l (ap n l kern p_full) d i) as E.
  { unfold mat_vec at 1. rewrite (rsum_ext n _ (fun j => kern i j * w j - rsum l (fun k => kern i j * pq j k * d k))).
    2:{ intros j J. destruct (Nat.ltb_spec j n); [|lia]. unfold mat_vec. rewrite (rsum_ext l (fun k => kern i j * pq j k * d k) (fun k => kern i j * (pq j k * d k))) by (intros; lra).
        rewrite rsum_scal. lra. }
    rewrite rsum_minus, rsum_swap. f_equal. apply rsum_ext. intros k K. unfold ap, mat_vec. rewrite <- rsum_scal_r. auto. }
  rewrite E. lra.
Qed.
Lemma ortho_true : forall rows st, true_on rows st -> true_on rows (exec Orthogonalize st).
Proof.
  intros rows [w res] T. unfold exec. destruct (Nat.eqb l 0); auto. intros i I. rewrite applied_ortho. cbn [orthogonalize snd].
  pose proof (T i I) as E. cbn [fst snd] in E. rewrite E. lra.
Qed.
Lemma coarse_in : forall k, (k < n_levels)%nat -> incl (lev 0%nat) (lev k).
Proof.
  induction k as [|k IH]; intros K; [intros x X; auto|]. intros x X. apply (proj1 (proj2 NEST)); [auto|]. apply IH; auto. lia.
Qed.
Lemma finest_all : forall k, (k < n_levels)%nat -> incl (lev k) (lev (n_levels - 1)%nat).
Proof. intros k K x X. apply NEST. destruct (proj1 NEST k K). auto. Qed.

Lemma true_incl : forall a b st, true_on a st -> incl b a -> true_on b st.
Proof. intros a b st T IN i I. apply T. auto. Qed.
Lemma logs_app : forall a b st, logs (a ++ b) st = logs a st ++ logs b (runs a st).
Proof.
  induction a as [|s a IH]; intros b st; auto. cbn [Datatypes.app solves_of]. rewrite IH, app_assoc. reflexivity.
Qed.
Lemma up_sound : forall ks st, (forall k, In k ks -> (k < n_levels)%nat) -> true_on (lev (n_levels - 1)%nat) st ->
  let ss := flat_map (fun level => [Solve level (Some (n_levels - 1)%nat); Orthogonalize; Solve 0 (Some (n_levels - 1)%nat)]) ks in
  Forall sound (logs ss st) /\ true_on (lev (n_levels - 1)%nat) (runs ss st).
Proof.
  induction ks as [|k ks IH]; intros st KS T; [split; [constructor|auto]|]. cbv zeta. cbn [flat_map]. rewrite logs_app.
  assert (k < n_levels)%nat as K by (apply KS; left; auto).
  set (s1 := exec (Solve k (Some (n_levels - 1)%nat)) st). set (s2 := exec Orthogonalize s1). set (s3 := exec (Solve 0 (Some (n_levels - 1)%nat)) s2).
  assert (true_on (lev (n_levels - 1)%nat) s1) as T1 by (apply (solve_true _ _ _ (lev (n_levels - 1)%nat)); auto; apply incl_refl).
  assert (true_on (lev (n_levels - 1)%nat) s2) as T2 by (apply ortho_true; auto).
  assert (true_on (lev (n_levels - 1)%nat) s3) as T3 by (apply (solve_true _ _ _ (lev (n_levels - 1)%nat)); auto; [lia|apply incl_refl]).
  destruct (IH s3) as [F E]; auto; [intros x X; apply KS; right; auto|]. unfold run in *. rewrite fold_left_app. cbn [fold_left].
  fold s1 s2 s3. split; [|exact E]. apply Forall_app. split; [|exact F]. cbn [solves_of Datatypes.app]. fold s1 s2. constructor.
  - split; [auto|]. apply (true_incl _ _ _ T). apply finest_all. auto.
  - constructor; [|constructor]. split; [cbn; lia|]. apply (true_incl _ _ _ T2). apply finest_all. cbn. lia.
Qed.
Lemma down_sound : forall m st, (m < n_levels)%nat -> true_on (lev m) st ->
  Forall sound (logs (flat_map (fun level => [Solve level (Some (level - 1)%nat); Orthogonalize;
                          Solve 0 (if (1 <? level)%nat then Some (level - 1)%nat else None)]) (rev (seq 1 m))) st).
Proof.
  induction m as [|m IH]; intros st M T; [constructor|]. rewrite seq_S, rev_app_distr.
  change (rev [(1 + m)%nat] ++ rev (seq 1 m)) with (S m :: rev (seq 1 m)). cbn [flat_map]. rewrite logs_app.
  replace (S m - 1)%nat with m by lia.
  set (s1 := exec (Solve (S m) (Some m)) st). set (s2 := exec Orthogonalize s1).
  assert (incl (lev m) (lev (S m))) as IN by (apply (proj1 (proj2 NEST)); auto).
  assert (true_on (lev m) s1) as T1 by (apply (solve_true _ _ _ (lev (S m))); auto).
  assert (true_on (lev m) s2) as T2 by (apply ortho_true; auto).
  apply Forall_app. split.
  - cbn [solves_of Datatypes.app]. fold s1 s2. constructor; [split; auto|]. constructor; [|constructor]. split; [cbn; lia|].
    apply (true_incl _ _ _ T2). apply coarse_in. lia.
  - cbn [run fold_left]. unfold run. cbn [fold_left]. fold s1 s2. destruct m as [|m].
    + cbn [seq rev flat_map solves_of]. constructor.
    + apply IH; [lia|]. change (1 <? S (S m))%nat with true. cbv iota. apply (solve_true _ _ _ (lev (S m))); auto; [lia|apply incl_refl].
Qed.
Lemma start_true : true_on (lev (n_levels - 1)%nat) (start v).
Proof. intros i I. cbn. unfold applied, mat_vec. rewrite !rsum_0; [lra|intros; lra|intros; lra]. Qed.
Theorem program_sound : Forall sound (logs (program n_levels) (start v)).
Proof.
  unfold program. rewrite !logs_app. set (s1 := runs [Solve 0 (Some (n_levels - 1)%nat)] (start v)).
  assert (true_on (lev (n_levels - 1)%nat) s1) as T1.
  { unfold s1, run. cbn [fold_left]. apply (solve_true _ _ _ (lev (n_levels - 1)%nat)); [lia|apply start_true|apply incl_refl]. }
  destruct (up_sound (seq 1 (n_levels - 2)) s1) as [F T2]; [intros k K; apply in_seq in K; lia|auto|].
  apply Forall_app. split; [|apply Forall_app; split; [exact F|apply down_sound; auto; lia]].
  cbn [solves_of Datatypes.app]. constructor; [|constructor]. split; [cbn; lia|]. apply (true_incl _ _ _ start_true). apply finest_all. cbn. lia.
Qed.

(** ** The end of the sweep *)
Lemma program_end : exists pre, program n_levels = pre ++ [Solve 1 (Some 0%nat); Orthogonalize; Solve 0 None].
Proof.
  unfold program. destruct n_levels as [|[|k]]; [lia|lia|]. replace (S (S k) - 1)%nat with (S k) by lia. cbn [seq rev]. rewrite flat_map_app. cbn [flat_map].
  change (1 <? 1)%nat with false. cbv iota. rewrite app_nil_r. rewrite app_assoc, app_assoc. eexists. reflexivity.
Qed.
Lemma final_state : exists tot res, true_on (lev 0%nat) (tot, res) /\
  (l <> 0%nat -> exists w r, (tot, res) = ortho (w, r)) /\
  forall i, precondition n l lev kern p_full solve n_levels v i = tot i + solve 0 res i.
Proof.
  unfold precondition. destruct (Nat.eqb_spec n_levels 1); [lia|]. destruct program_end as [pre E]. pose proof program_sound as F. rewrite E in *.
  rewrite logs_app in F. apply Forall_app in F. destruct F as [_ F]. set (st := runs pre (start v)) in *. cbn [solves_of Datatypes.app] in F.
  inversion F as [|? ? _ F2]; subst. inversion F2 as [|? ? [_ S2] _]; subst. cbn [fst snd] in S2. clear F F2.
  change (true_on (lev 0%nat) (exec Orthogonalize (exec (Solve 1 (Some 0%nat)) st))) in S2.
  unfold run. rewrite fold_left_app. fold (runs pre (start v)). fold st. cbn [fold_left].
  set (s1 := exec (Solve 1 (Some 0%nat)) st) in *. clearbody s1. destruct (exec Orthogonalize s1) as [tot res] eqn:EO in S2 |- *.
  exists tot, res. split; [exact S2|]. split; [|intros i; reflexivity].
  intros L0. destruct s1 as [w r]. exists w, r. rewrite <- EO. unfold exec. destruct (Nat.eqb_spec l 0); [contradiction|auto].
Qed.

Theorem coarse_exact : (forall r i, In i (lev 0%nat) -> app (solve 0 r) i = r i) ->
  forall i, In i (lev 0%nat) -> app (precondition n l lev kern p_full solve n_levels v) i = v i.
Proof.
  intros EX i I. destruct final_state as (tot & res & T & _ & E).
  assert (app (precondition n l lev kern p_full solve n_levels v) i = app (fun j => tot j + solve 0 res j) i) as ->.
  { unfold applied. f_equal; apply rsum_ext; intros; rewrite E; auto. }
  rewrite applied_plus, EX by auto. pose proof (T i I) as R. cbn [fst snd] in R. rewrite R. lra.
Qed.

Theorem result_orthogonal : independent n l p_full -> (forall r, orthogonal n l p_full (solve 0 r)) ->
  orthogonal n l p_full (precondition n l lev kern p_full solve n_levels v).
Proof.
  intros IND OS k K. destruct final_state as (tot & res & _ & O & E). destruct (O ltac:(lia)) as (w & r & EO).
  destruct (orthonormalize_spec n l p_full IND) as [ON [c SP]]. fold pq in ON, SP.
  rewrite (rsum_ext n _ (fun i => p_full i k * tot i + p_full i k * solve 0 res i)) by (intros; rewrite E; lra).
  rewrite rsum_plus, (OS res k K), Rplus_0_r.
  assert (forall t, (t < l)%nat -> rsum n (fun i => pq i t * tot i) = 0) as Z.
  { intros t T. unfold orthogonalize in EO. injection EO as E1 E2. set (d := fun k => rsum n (fun i => pq i k * w i)) in *.
    rewrite (rsum_ext n _ (fun i => pq i t * w i - rsum l (fun s => pq i t * pq i s * d s))).
    2:{ intros i I. rewrite E1. destruct (Nat.ltb_spec i n); [|lia]. rewrite (rsum_ext l _ (fun s => pq i t * (pq i s * d s))) by (intros; lra). rewrite rsum_scal. unfold mat_vec. lra. }
    rewrite rsum_minus, rsum_swap. fold (d t). rewrite (rsum_ext l _ (fun s => (if Nat.eqb t s then 1 else 0) * d s)).
    2:{ intros s S. rewrite rsum_scal_r. f_equal. apply (ON t s T S). }
    rewrite (rsum_single l t); auto; [rewrite Nat.eqb_refl; lra|]. intros s S N. destruct (Nat.eqb_spec t s); [congruence|lra]. }
  rewrite (rsum_ext n _ (fun i => rsum l (fun t => pq i t * tot i * c t k))).
  2:{ intros i I. rewrite (SP i k I K). rewrite <- rsum_scal_r. apply rsum_ext. intros. lra. }
  rewrite rsum_swap. apply rsum_0. intros t T. rewrite rsum_scal_r, Z by auto. lra.
Qed.
End Residuals.

(** ** Linearity *)
Lemma mat_vec_linear : forall c m x y z a b i, (forall j, z j = a * x j + b * y j) -> mat_vec c m z i = a * mat_vec c m x i + b * mat_vec c m y i.
Proof. intros c m x y z a b i H. unfold mat_vec. rewrite <- !rsum_scal, <- rsum_plus. apply rsum_ext. intros j _. rewrite H. lra. Qed.
Definition combined (a b : R) (x y z : (nat -> R) * (nat -> R)) : Prop :=
  (forall j, fst z j = a * fst x j + b * fst y j) /\ (forall j, snd z j = a * snd x j + b * snd y j).
Lemma step_linear : (forall k, linear (solve k)) -> forall s a b x y z, combined a b x y z -> combined a b (exec s x) (exec s y) (exec s z).
Proof.
  intros LIN s a b [x1 x2] [y1 y2] [z1 z2] [H1 H2]. cbn [fst snd] in *. destruct s as [k t|]; cbn [run_step].
  - pose proof (LIN k a b x2 y2 z2 H2) as L. split; cbn [fst snd].
    + intros j. rewrite H1, L. lra.
    + destruct t as [t|]; auto. intros j. unfold update. destruct (existsb _ _); auto. unfold fit.
      rewrite (mat_vec_linear l p_full (fun k0 => solve k x2 (n + k0)%nat) (fun k0 => solve k y2 (n + k0)%nat) (fun k0 => solve k z2 (n + k0)%nat) a b) by (intros; apply L).
      assert (gathered (lev k) (fun q => kern j q * solve k z2 q) = a * gathered (lev k) (fun q => kern j q * solve k x2 q) + b * gathered (lev k) (fun q => kern j q * solve k y2 q)) as ->.
      { induction (lev k) as [|q rows IH]; cbn; [lra|]. rewrite IH, L. lra. }
      rewrite H2. lra.
  - destruct (Nat.eqb l 0); [split; auto|]. unfold orthogonalize.
    assert (forall k, rsum n (fun i => pq i k * z1 i) = a * rsum n (fun i => pq i k * x1 i) + b * rsum n (fun i => pq i k * y1 i)) as D.
    { intros k. apply (mat_vec_linear n (fun _ i => pq i k) x1 y1 z1 a b 0%nat H1). }
    split; cbn [fst snd]; intros j.
    + rewrite (mat_vec_linear l pq _ _ _ a b j D), H1. destruct (j <? n)%nat; lra.
    + rewrite (mat_vec_linear l _ _ _ _ a b j D), H2. lra.
Qed.
Theorem precondition_linear : (forall k, linear (solve k)) -> linear (precondition n l lev kern p_full solve n_levels).
Proof.
  intros LIN a b x y z H. unfold precondition. destruct (Nat.eqb n_levels 1); [apply LIN; auto|].
  assert (combined a b (start x) (start y) (start z)) as C by (split; cbn; [intros; lra|auto]).
  generalize (start x) (start y) (start z) C. clear C. unfold run. induction (program n_levels) as [|s ss IH]; intros X Y Z C; cbn [fold_left]; [apply C|].
  apply IH. apply step_linear; auto.
Qed.
End Ras.

(** ** With a nugget
    One row on two levels, kernel value 1 and nugget 1: every solve is exact for the system with nugget, the first one gives
    the solution, and the sweep moves away from it. *)
Definition half (k : nat) (r : nat -> R) (i : nat) : R := if Nat.eqb i 0 then r 0%nat / 2 else 0.
Lemma nugget_ignored :
  nested 1 2 (fun _ => [0%nat]) /\ local_solve 1 2 (fun _ => [0%nat]) half /\
  (forall k r, applied 1 0 (fun _ _ => 1) (fun _ _ => 0) (half k r) 0 + 1 * half k r 0%nat = r 0%nat) /\
  (let w := precondition 1 0 (fun _ => [0%nat]) (fun _ _ => 1) (fun _ _ => 0) half 2 (fun _ => 1) in
   applied 1 0 (fun _ _ => 1) (fun _ _ => 0) w 0 + 1 * w 0%nat <> 1).
Proof.
  split; [|split; [|split]].
  - split; [|split].
    + intros k K. split; [repeat constructor; auto|intros i [<-|[]]; lia]. 
    + intros k K x X. auto.
    + intros i I. left. lia.
  - intros k r i K I N. exfalso. apply N. left. lia.
  - intros k r. unfold applied, mat_vec, half. cbn. lra.
  - cbn. unfold applied, mat_vec, update, fit, half, mat_vec. cbn. lra.
Qed.
