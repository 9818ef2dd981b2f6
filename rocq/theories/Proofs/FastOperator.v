From Coq Require Import Reals List Arith NArith Lia Lra Permutation FunctionalExtensionality Bool.
From Verif Require Import Proofs.LinAlg Proofs.Fmm Proofs.FmmSymmetric Proofs.Operator Proofs.Spheroidal Proofs.Rbfs Proofs.PositiveSystem.
From Verif Require Import Model.MonomialBasis Model.Grid Model.GridProblem Model.Outcome Model.LinAlg Model.Rbfs Model.Solver Model.Operator Model.Fmm Model.FastOperator.
From Verif Require Import Spec.Grid Spec.GridProblem Spec.SolverRun Spec.Rbfs Spec.Operator Spec.Fmm Spec.PositiveDefinite Spec.Hermite Spec.FastOperator.
Import ListNotations.
Local Open Scope R_scope.

Definition zero : vec := fun _ => 0.
(** The sum an evaluator stands for: output [i] at [x] of the weights [w] at the points [src]. *)
Definition exact_sum (d : nat) (f : function) (kk : kernel_kind) (src : list vec) (w : list R) (x : vec) (i : nat) : R :=
  rsum (length src) (fun k => rsum (kernel_inputs d kk) (fun j =>
    nth (kernel_inputs d kk * k + j) w 0 * kernel_number d f kk (transformed d f x) (transformed d f (nth k src zero)) i j)).
(** [y] lists [kn] values per target. *)
Definition tabulates (kn : nat) (y : list R) (trg : list vec) (g : vec -> nat -> R) : Prop :=
  length y = (kn * length trg)%nat /\
  forall j i, (j < length trg)%nat -> (i < kn)%nat -> nth (kn * j + i) y 0 = g (nth j trg zero) i.

(** What is asked of an evaluator: [I s b S T w] says that it has seen the sources [S] ([b] if they were set at all), the targets [T] and the
    weights [w] for these sources. *)
Record contract (M : machine) (own : bool) (km kn : nat) (g : list vec -> list R -> vec -> nat -> R) (fine : list vec -> list vec -> Prop)
    (J : m_state M -> bool -> list vec -> list vec -> option (list R) -> Prop) : Prop := {
  c_new : J (m_new M) false [] [] None;
  c_acc : forall s b S T w a, J s b S T w -> J (m_accuracy M s a) b S T w;
  c_src : forall s b S T w p, J s b S T w -> J (m_source M s p) true p (if own then p else T) None;
  c_trg : forall s b S T w p, J s b S T w -> J (m_target M s p) b S (if own then T else p) w;
  c_wts : forall s b S T w w', J s b S T w -> length w' = (km * length S)%nat -> exists s', m_weights M s w' = Ok s' /\ J s' b S T (Some w');
  c_run : forall s b S T w s' r, J s b S T w -> m_evaluate M s = Ok (s', r) -> J s' b S T w;
  c_out : forall s S T w, J s true S T (Some w) -> fine S T -> exists s' y, m_evaluate M s = Ok (s', inl y) /\ tabulates kn y T (g S w) }.

Lemma sum_rsum : forall n f, sum n f = rsum n f.
Proof.
  intros n f. unfold sum. rewrite <- lsum_seq. induction (seq 0 n) as [|a l IH]; cbn; [reflexivity|]. rewrite IH. reflexivity.
Qed.
Lemma nth_map_vec : forall (g : vec -> vec) l k, (k < length l)%nat -> nth_error (map g l) k = Some (g (nth k l zero)).
Proof. intros g l k L. rewrite nth_error_map. rewrite (nth_error_nth' l zero L). reflexivity. Qed.

(** ** The kernels *)

Section Kernels.
Variable d : nat.

Lemma transformed_difference : forall f x y, (fun e => transformed d f x e - transformed d f y e) = mat_vec d (f_a f) (difference x y).
Proof.
  intros f x y. apply functional_extensionality. intros e. unfold transformed, mat_vec, difference. rewrite <- rsum_minus. apply rsum_ext. intros i _. ring.
Qed.
Lemma kernel_same : forall f kk x i j, kernel_number d f kk x x i j = kernel_number d f kk zero zero i j.
Proof.
  intros f kk x i j. unfold kernel_number. replace (fun e => x e - x e) with (fun e => zero e - zero e); auto.
  apply functional_extensionality. intros e. unfold zero. ring.
Qed.
Lemma kernel_far : forall f kk x y i j radius, 0 < f_p1 f -> support_radius (f_kind f) (f_p1 f) = Some radius ->
  radius <= sqrt (dot d (difference x y) (difference x y)) -> kernel_number d f kk x y i j = 0.
Proof.
  intros f kk x y i j radius P RA B. unfold kernel_number. change (fun e => x e - y e) with (difference x y).
  destruct kk; try (rewrite (beyond d _ (f_p0 f) _ (f_a f) _ i j _ radius P RA); [reflexivity| |exact B]; intros [_ K]; discriminate K).
  destruct (f_kind f) eqn:K; try (rewrite (beyond d _ (f_p0 f) _ (f_a f) _ i j _ radius P RA); [reflexivity| |exact B]; intros [N _]; exact N); reflexivity.
Qed.
End Kernels.

(** ** The fast evaluators *)

Section Fast.
Variable d : nat.
Variable f : function.
Variable kk : kernel_kind.
Variable rest : fenv vec.
Hypothesis OK : env_ok vec rest.
Let E := kernel_env d f kk rest.
Let tr := transformed d f.

Lemma env_kernel : env_ok vec E.
Proof using OK. destruct OK as [A B C D]. split; assumption. Qed.
Lemma zero_kernel : same_at_zero vec E.
Proof. intros x i j. apply kernel_same. Qed.
Lemma potential_exact : forall S w x i, potential vec E (map tr S) w (tr x) i = exact_sum d f kk S w x i.
Proof.
  intros S w x i. unfold potential, exact_sum. rewrite sum_rsum, map_length. apply rsum_ext. intros k K.
  rewrite (nth_map_vec tr S k K). rewrite sum_rsum. reflexivity.
Qed.
Lemma lists_tabulates : forall y S T w, lists vec E y (map tr T) (potential vec E (map tr S) w) -> tabulates (kernel_outputs d kk) y T (exact_sum d f kk S w).
Proof.
  intros y S T w [L G]. rewrite map_length in L. split; [exact L|]. intros j i J I.
  specialize (G j (tr (nth j T zero)) i (nth_map_vec tr T j J) I). rewrite potential_exact in G. apply nth_error_nth. exact G.
Qed.

Definition fmm_seen (s : Fmm.state vec) (b : bool) (S T : list vec) (w : option (list R)) : Prop :=
  exists fb acc, inv vec E (View acc (map tr S) w (map tr T)) (points_in vec (map tr S)) (holds fb) s.

Lemma fmm_contract : contract (fmm_machine d f kk rest) false (kernel_inputs d kk) (kernel_outputs d kk) (exact_sum d f kk)
  (fun S T => (N.of_nat (length S) * N.of_nat (length T) < 1048576)%N) fmm_seen.
Proof using OK.
  pose proof env_kernel as EK. split; cbn [fmm_machine m_state m_new m_accuracy m_source m_target m_weights m_evaluate]; fold E; fold tr.
  - exists true, None. eapply inv_weaken; [|apply inv_new]. auto.
  - intros s b S T w a (fb & acc & J). pose proof (step_spec vec E EK _ _ s (SetAccuracy a) Logic.I J) as ST. cbn [step] in ST.
    destruct ST as [ST _]. exists true, a. exact ST.
  - intros s b S T w p (fb & acc & J). pose proof (step_spec vec E EK _ _ s (SetSource (map tr p)) Logic.I J) as ST. cbn [step] in ST.
    destruct ST as [ST _]. exists true, acc. exact ST.
  - intros s b S T w p (fb & acc & J). pose proof (step_spec vec E EK _ _ s (SetTarget (map tr p)) Logic.I J) as ST. cbn [step] in ST.
    destruct ST as [ST _]. exists fb, acc. exact ST.
  - intros s b S T w w' (fb & acc & J) L. assert (Z : sized vec E (View acc (map tr S) w (map tr T)) (SetWeights w')).
    { cbn. rewrite map_length. exact L. }
    pose proof (step_spec vec E EK _ _ s (SetWeights w') Z J) as ST. cbn [step] in ST. destruct (set_weights vec E s w') as [s'|e|]; cbn [bind] in ST.
    + destruct ST as [ST _]. exists s'. split; auto. exists fb, acc. exact ST.
    + contradiction.
    + destruct ST; discriminate.
  - intros s b S T w s' r (fb & acc & J) EV. pose proof (step_spec vec E EK _ _ s Evaluate Logic.I J) as ST. cbn [step] in ST. rewrite EV in ST. cbn [bind fst snd] in ST.
    destruct ST as [ST _]. eexists _, acc. exact ST.
  - intros s S T w (fb & acc & J) SM. set (v := View acc (map tr S) (Some w) (map tr T)) in *.
    pose proof (evaluate_spec vec E EK v _ (holds fb) s (src_ok_points vec E v) J) as EV.
    assert (exists s' y, evaluate vec E s = Ok (s', inl y)) as (s' & y & EQ).
    { unfold evaluate, prepare, small.
      assert (length (src vec s) = length S) as -> by (rewrite (points_length vec _ _ (src_ok_points vec E v _ (i_src _ _ _ _ _ _ J))); apply map_length).
      assert (length (trg vec s) = length T) as LT by (rewrite (Permutation_length (i_trg _ _ _ _ _ _ J)), numbered_length; apply map_length).
      rewrite LT. destruct (N.ltb_spec (N.of_nat (length S) * N.of_nat (length T)) 1048576); [|lia].
      cbn [bind cfg c_height no_config Nat.ltb Nat.leb src trg dirty].
      destruct (outputs vec E (map tr T) (trg vec s) (direct_at vec E (src vec s)) (i_trg _ _ _ _ _ _ J)) as (y & Y & _). rewrite Y. cbn. eauto. }
    rewrite EQ in EV. exists s', y. split; auto. destruct EV as [_ EV]. destruct (EV w eq_refl) as [C|(c & ps & NS & _)].
    + apply lists_tabulates. exact C.
    + exfalso. apply NS. cbn [v_src v_trg v]. rewrite !map_length. exact SM.
Qed.

Definition sym_seen_as (s : sym vec) (b : bool) (S T : list vec) (w : option (list R)) : Prop :=
  T = S /\ exists fb acc, sinv vec E (View acc (map tr S) w []) (holds fb) s.
Lemma fmm_symmetric_contract : contract (fmm_symmetric_machine d f kk rest) true (kernel_inputs d kk) (kernel_outputs d kk) (exact_sum d f kk)
  (fun S T => (N.of_nat (length S) < 1024)%N) sym_seen_as.
Proof using OK.
  pose proof env_kernel as EK. pose proof zero_kernel as ZK.
  split; cbn [fmm_symmetric_machine m_state m_new m_accuracy m_source m_target m_weights m_evaluate]; fold E; fold tr.
  - split; auto. exists true, None. eapply sinv_weaken; [|apply sinv_new]. auto.
  - intros s b S T w a (-> & fb & acc & J). split; auto. pose proof (sym_step_spec vec E EK ZK _ _ s (SymSetAccuracy a) Logic.I J) as ST. exists true, a. exact ST.
  - intros s b S T w p (-> & fb & acc & J). split; auto. pose proof (sym_step_spec vec E EK ZK _ _ s (SymSetPoints (map tr p)) Logic.I J) as ST. exists true, acc. exact ST.
  - intros s b S T w p (-> & fb & acc & J). split; auto. exists fb, acc. exact J.
  - intros s b S T w w' (-> & fb & acc & J) L. assert (Z : sym_sized vec E (View acc (map tr S) w []) (SymSetWeights w')).
    { cbn. rewrite map_length. exact L. }
    pose proof (sym_step_spec vec E EK ZK _ _ s (SymSetWeights w') Z J) as ST. cbn [sym_step] in ST. destruct (sym_set_weights vec E s w') as [s'|e|]; cbn [bind] in ST.
    + exists s'. split; auto. split; auto. exists fb, acc. exact ST.
    + contradiction.
    + destruct ST; discriminate.
  - intros s b S T w s' r (-> & fb & acc & J) EV. split; auto. pose proof (sym_step_spec vec E EK ZK _ _ s SymEvaluate Logic.I J) as ST. cbn [sym_step] in ST.
    rewrite EV in ST. cbn [bind fst snd] in ST. eexists _, acc. exact ST.
  - intros s S T w (-> & fb & acc & J) SM. set (v := View acc (map tr S) (Some w) []) in *.
    assert (exists s' y, sym_evaluate vec E s = Ok (s', inl y) /\ sym_correct vec E v w y) as (s' & y & EQ & C).
    { unfold sym_evaluate, sym_prepare.
      assert (length (y_src vec s) = length S) as LS by (rewrite (points_length vec _ _ (src_ok_points vec E v _ (j_src _ _ _ _ _ J))); apply map_length).
      rewrite LS. destruct (N.ltb_spec (N.of_nat (length S)) 1024); [|lia].
      cbn [bind y_cfg c_height no_config Nat.ltb Nat.leb y_src].
      destruct (sym_direct vec E ZK v (y_src vec s) (j_src _ _ _ _ _ J)) as (y & Y & G). rewrite Y. cbn [bind]. eexists _, y. split; [reflexivity|]. apply G. reflexivity. }
    exists s', y. split; auto. destruct C as [C|(c & ps & NS & _)].
    + apply lists_tabulates. exact C.
    + exfalso. apply NS. cbn [v_src v]. rewrite map_length. exact SM.
Qed.
End Fast.

(** ** The direct evaluators *)

Lemma map_out_all : forall A B (g : A -> outcome B) (h : A -> B) l, (forall x, In x l -> g x = Ok (h x)) -> map_out g l = Ok (map h l).
Proof.
  intros A B g h l G. induction l as [|a l IH]; cbn [map_out map]; auto. rewrite G by (left; auto). cbn [bind]. rewrite IH; auto. intros x X. apply G. right. auto.
Qed.
Lemma elems_nth : forall A (v : list A) dflt is, (forall i, In i is -> (i < length v)%nat) -> elems v is = Ok (map (fun i => nth i v dflt) is).
Proof.
  intros A v dflt is B. induction is as [|i is IH]; cbn [elems map]; auto. unfold elem. rewrite (nth_error_nth' v dflt) by (apply B; left; auto). cbn [of_option bind].
  rewrite IH; auto. intros k K. apply B. right. auto.
Qed.
Lemma fold_rsum : forall (g : nat -> R) n y, fold_left (fun y j => y + g j) (seq 0 n) y = y + rsum n g.
Proof. intros g n y. rewrite fold_lsum, lsum_seq. reflexivity. Qed.
Lemma rows_nth : forall A (rows : list (list A)) kn dflt ddflt j i, (forall r, In r rows -> length r = kn) -> (j < length rows)%nat -> (i < kn)%nat ->
  nth (kn * j + i) (concat rows) dflt = nth i (nth j rows ddflt) dflt.
Proof.
  intros A rows kn dflt ddflt. induction rows as [|r rows IH]; intros j i L J I; [cbn in J; lia|]. cbn [concat]. destruct j as [|j].
  - rewrite Nat.mul_0_r, Nat.add_0_l. cbn [nth]. apply app_nth1. rewrite (L r) by (left; auto). auto.
  - cbn [nth]. rewrite app_nth2; rewrite (L r) by (left; auto); [|nia]. replace (kn * S j + i - kn)%nat with (kn * j + i)%nat by nia. cbn in J.
    apply IH; auto; [|lia]. intros q Q. apply L. right. auto.
Qed.
Lemma rows_length : forall A (rows : list (list A)) kn, (forall r, In r rows -> length r = kn) -> length (concat rows) = (kn * length rows)%nat.
Proof.
  intros A rows kn L. induction rows as [|r rows IH]; cbn [concat length]; [lia|]. rewrite app_length, (L r) by (left; auto). rewrite IH; [lia|].
  intros q Q. apply L. right. auto.
Qed.
(** A sum over the indices found is the sum over all if the others contribute nothing. *)
Lemma found_sum : forall N indices (g : nat -> R), NoDup indices -> (forall j, In j indices -> (j < N)%nat) ->
  (forall j, (j < N)%nat -> ~ In j indices -> g j = 0) -> lsum indices g = rsum N g.
Proof.
  intros N indices g ND B Z. rewrite <- lsum_seq. rewrite (lsum_perm _ _ _ g (perm_complement N indices ND B)), lsum_app.
  rewrite (lsum_ext _ (filter _ _) g (fun _ => 0)).
  - assert (C : forall l : list nat, lsum l (fun _ => 0) = 0) by (induction l as [|a l IH]; cbn; [reflexivity|rewrite IH; ring]). rewrite C. ring.
  - intros j J. apply filter_In in J as [J K]. apply in_seq in J. apply Z; [lia|]. intros F. apply Bool.negb_true_iff in K.
    assert (existsb (Nat.eqb j) indices = true) as X by (apply existsb_exists; exists j; split; auto; apply Nat.eqb_refl). congruence.
Qed.

Section Direct.
Variable d : nat.
Variable f : function.
Variable kk : kernel_kind.
Variable near : list vec -> vec -> R -> list nat.
Variable fresh : nat -> list R.
Hypothesis SEARCH : sound_search d near.
Hypothesis RANGE : 0 < f_p1 f.
Variable radius : R.
Hypothesis RADIUS : support_radius (f_kind f) (f_p1 f) = Some radius.
Let tr := transformed d f.
Let km := kernel_inputs d kk.
Let kn := kernel_outputs d kk.

Definition inputs_of (w : list R) (n : nat) : list (list R) := map (fun k => map (fun j => nth (km * k + j) w 0) (seq 0 km)) (seq 0 n).
Definition direct_holds (s : direct_state) (b : bool) (S : list vec) (w : option (list R)) : Prop :=
  ds_points s = map tr S /\ length (ds_inputs s) = length S /\ (b = true -> ds_tree s = Some (map tr S)) /\
  forall v, w = Some v -> ds_inputs s = inputs_of v (length S).
Definition direct_seen (s : direct_state) (b : bool) (S T : list vec) (w : option (list R)) : Prop := direct_holds s b S w /\ ds_targets s = map tr T.
Definition direct_symmetric_seen (s : direct_state) (b : bool) (S T : list vec) (w : option (list R)) : Prop := direct_holds s b S w /\ T = S.

Lemma input_sum : forall x q ins i y, add_input d f kk x q ins i y = y + rsum km (fun j => nth j ins 0 * kernel_number d f kk x q i j).
Proof. intros. unfold add_input. apply (fold_rsum (fun j => nth j ins 0 * kernel_number d f kk x q i j)). Qed.
Lemma output_sum : forall qs x i y, direct_output d f kk qs x i y = y + lsum qs (fun q => rsum km (fun j => nth j (snd q) 0 * kernel_number d f kk x (fst q) i j)).
Proof.
  induction qs as [|q qs IH]; intros x i y; cbn [lsum]; [unfold direct_output; cbn; ring|]. unfold direct_output in *. cbn [fold_left]. rewrite IH, input_sum. ring.
Qed.
Lemma inputs_nth : forall w n k j, (k < n)%nat -> (j < km)%nat -> nth j (nth k (inputs_of w n) []) 0 = nth (km * k + j) w 0.
Proof.
  intros w n k j K J. unfold inputs_of. rewrite (nth_indep _ [] (map (fun j => nth (km * 0 + j) w 0) (seq 0 km))) by (rewrite map_length, seq_length; auto).
  rewrite (map_nth (fun k => map (fun j => nth (km * k + j) w 0) (seq 0 km)) (seq 0 n) 0%nat k). rewrite seq_nth by auto. rewrite Nat.add_0_l.
  rewrite (nth_indep _ 0 (nth (km * k + 0) w 0)) by (rewrite map_length, seq_length; auto).
  rewrite (map_nth (fun j => nth (km * k + j) w 0) (seq 0 km) 0%nat j). rewrite seq_nth by auto. reflexivity.
Qed.
Lemma combine_at : forall s S w k, direct_holds s true S (Some w) -> (k < length S)%nat ->
  nth k (combine (ds_points s) (ds_inputs s)) (zero, []) = (tr (nth k S zero), nth k (inputs_of w (length S)) []).
Proof.
  intros s S w k (P & L & _ & IN) K. rewrite combine_nth by (rewrite P, map_length; auto). rewrite P, (IN w eq_refl). f_equal.
  apply nth_error_nth. apply nth_map_vec. auto.
Qed.
Lemma particles_found : forall s S w keep x, direct_holds s true S (Some w) ->
  found_particles f near s keep x = Ok (map (fun k => (tr (nth k S zero), nth k (inputs_of w (length S)) [])) (filter keep (near (map tr S) x radius))).
Proof.
  intros s S w keep x H. destruct H as (P & L & TR & IN) eqn:EH. unfold found_particles. rewrite (TR eq_refl). cbn [of_option bind].
  unfold direct_radius. rewrite RADIUS. destruct (SEARCH (map tr S) x radius) as (_ & B & _). rewrite map_length in B.
  rewrite (elems_nth _ _ (zero, [])).
  - f_equal. apply map_ext_in. intros k K. apply filter_In in K as [K _]. apply (combine_at s S w k H). apply B. auto.
  - intros k K. apply filter_In in K as [K _]. rewrite combine_length, P, map_length, L, Nat.min_id. apply B. auto.
Qed.
(** The near sources give the whole sum; [keep] leaves out sources that are counted elsewhere. *)
Lemma near_sum : forall S w x i keep, let idx := filter keep (near (map tr S) (tr x) radius) in
  lsum (map (fun k => (tr (nth k S zero), nth k (inputs_of w (length S)) [])) idx)
    (fun q => rsum km (fun j => nth j (snd q) 0 * kernel_number d f kk (tr x) (fst q) i j)) =
  rsum (length S) (fun k => if keep k then rsum km (fun j => nth (km * k + j) w 0 * kernel_number d f kk (tr x) (tr (nth k S zero)) i j) else 0).
Proof.
  intros S w x i keep idx. destruct (SEARCH (map tr S) (tr x) radius) as (ND & B & C). rewrite map_length in B, C.
  rewrite lsum_map. cbn [fst snd].
  assert (BI : forall k, In k idx -> (k < length S)%nat) by (intros k K; apply filter_In in K as [K _]; auto).
  rewrite (lsum_ext _ idx _ (fun k => if keep k then rsum km (fun j => nth (km * k + j) w 0 * kernel_number d f kk (tr x) (tr (nth k S zero)) i j) else 0)).
  - apply found_sum; auto; [apply NoDup_filter; auto|]. intros k K N. destruct (keep k) eqn:KE; auto. apply rsum_0. intros j J.
    rewrite (kernel_far d f kk (tr x) (tr (nth k S zero)) i j radius RANGE RADIUS); [ring|].
    apply Rnot_lt_le. intros LT. apply N. apply filter_In. split; auto. apply C; auto.
    exact (eq_ind_r (fun v => sqrt (dot d (difference (tr x) v) (difference (tr x) v)) < radius) LT (nth_error_nth (map tr S) k (fun _ => 0) (nth_map_vec tr S k K))).
  - intros k K. pose proof (BI k K) as KL. apply filter_In in K as [_ KE]. rewrite KE. apply rsum_ext. intros j J. rewrite inputs_nth by auto. reflexivity.
Qed.
Lemma direct_loads : forall s b S w v, direct_holds s b S w -> length v = (km * length S)%nat ->
  exists s', direct_weights d kk s v = Ok s' /\ direct_holds s' b S (Some v) /\ ds_targets s' = ds_targets s.
Proof.
  intros s b S w v (P & L & TR & IN) LV. unfold direct_weights. fold km. rewrite P, map_length.
  rewrite (map_out_all _ _ _ (fun k => map (fun j => nth (km * k + j) v 0) (seq 0 km))).
  - cbn [bind]. eexists. split; [reflexivity|]. split; [|reflexivity]. split; [reflexivity|]. split; [cbn; rewrite map_length, seq_length; auto|]. split; [exact TR|].
    intros v' E. injection E as <-. reflexivity.
  - intros k K. apply in_seq in K. rewrite (elems_nth _ v 0); [rewrite map_map; reflexivity|]. intros q Q. apply in_map_iff in Q as (j & <- & J). apply in_seq in J.
    rewrite LV. nia.
Qed.
Lemma direct_sources : forall s S, direct_holds (direct_source d f fresh s S) true S None.
Proof.
  intros s S. split; [reflexivity|]. split; [cbn; rewrite map_length, seq_length, map_length; auto|]. split; [reflexivity|]. intros v E. discriminate E.
Qed.

Lemma direct_contract : contract (direct_machine d f kk near fresh) false km kn (exact_sum d f kk) (fun _ _ => True) direct_seen.
Proof using SEARCH RANGE RADIUS.
  split; cbn [direct_machine m_state m_new m_accuracy m_source m_target m_weights m_evaluate].
  - split; [|reflexivity]. split; [reflexivity|]. split; [reflexivity|]. split; [discriminate|]. discriminate.
  - auto.
  - intros s b S T w p [_ H]. split; [apply direct_sources|exact H].
  - intros s b S T w p [H _]. split; [exact H|reflexivity].
  - intros s b S T w v [H HT] L. destruct (direct_loads s b S w v H L) as (s' & E & H' & HT'). exists s'. split; auto. split; auto. congruence.
  - intros s b S T w s' r H EV. unfold direct_evaluate in EV. destruct (map_out _ (ds_targets s)) as [ys|e|]; cbn [bind] in EV; try discriminate. injection EV as <- _. exact H.
  - intros s S T w [H HT] _. unfold direct_evaluate. rewrite HT.
    set (row := fun x => map (fun i => direct_output d f kk (map (fun k => (tr (nth k S zero), nth k (inputs_of w (length S)) []))
      (filter (fun _ => true) (near (map tr S) x radius))) x i 0) (seq 0 kn)).
    rewrite (map_out_all _ _ _ row).
    2: { intros x X. rewrite (particles_found s S w (fun _ => true) x H). reflexivity. }
    cbn [bind]. eexists s, _. split; [reflexivity|].
    assert (RL : forall r, In r (map row (map tr T)) -> length r = kn) by (intros r Q; apply in_map_iff in Q as (x & <- & _); unfold row; rewrite map_length, seq_length; auto).
    split; [rewrite (rows_length _ _ kn RL), !map_length; reflexivity|]. intros j i J I.
    rewrite (rows_nth _ _ kn 0 [] j i RL) by (rewrite ?map_length; auto).
    rewrite (nth_indep _ [] (row (tr zero))) by (rewrite !map_length; auto). rewrite map_map. rewrite (map_nth (fun x => row (tr x)) T zero j). unfold row.
    rewrite (nth_indep _ 0 (direct_output d f kk (map (fun k => (tr (nth k S zero), nth k (inputs_of w (length S)) []))
      (filter (fun _ => true) (near (map tr S) (tr (nth j T zero)) radius))) (tr (nth j T zero)) 0%nat 0)) by (rewrite map_length, seq_length; auto).
    rewrite (map_nth (fun i => direct_output d f kk (map (fun k => (tr (nth k S zero), nth k (inputs_of w (length S)) []))
      (filter (fun _ => true) (near (map tr S) (tr (nth j T zero)) radius))) (tr (nth j T zero)) i 0) (seq 0 kn) 0%nat i). rewrite seq_nth by auto. rewrite Nat.add_0_l.
    rewrite output_sum, Rplus_0_l. rewrite (near_sum S w (nth j T zero) i (fun _ => true)). reflexivity.
Qed.

Lemma direct_symmetric_contract : contract (direct_symmetric_machine d f kk near fresh) true km kn (exact_sum d f kk) (fun _ _ => True) direct_symmetric_seen.
Proof using SEARCH RANGE RADIUS.
  split; cbn [direct_symmetric_machine m_state m_new m_accuracy m_source m_target m_weights m_evaluate].
  - split; [|reflexivity]. split; [reflexivity|]. split; [reflexivity|]. split; [discriminate|]. discriminate.
  - auto.
  - intros s b S T w p [_ H]. split; [apply direct_sources|reflexivity].
  - intros s b S T w p H. exact H.
  - intros s b S T w v [H HT] L. destruct (direct_loads s b S w v H L) as (s' & E & H' & HT'). exists s'. split; auto. split; auto.
  - intros s b S T w s' r H EV. unfold direct_symmetric_evaluate in EV. destruct (map_out _ (seq 0 (length (ds_points s)))) as [ys|e|]; cbn [bind] in EV; try discriminate.
    injection EV as <- _. exact H.
  - intros s S T w [H ->] _. unfold direct_symmetric_evaluate. pose proof H as (P & L & _ & _). rewrite P, map_length. rewrite <- P.
    set (out := fun k i => add_input d f kk zero zero (nth k (inputs_of w (length S)) []) i
      (direct_output d f kk (map (fun k => (tr (nth k S zero), nth k (inputs_of w (length S)) []))
        (filter (fun m => negb (Nat.eqb m k)) (near (map tr S) (tr (nth k S zero)) radius))) (tr (nth k S zero)) i 0)).
    set (row := fun k => map (out k) (seq 0 kn)).
    rewrite (map_out_all _ _ _ row).
    2: { intros k K. apply in_seq in K. unfold elem. rewrite (nth_error_nth' _ (zero, [])) by (rewrite combine_length, P, map_length, L, Nat.min_id; lia). cbn [of_option bind].
         rewrite (combine_at s S w k H) by lia. cbn [fst snd]. rewrite (particles_found s S w _ _ H). reflexivity. }
    cbn [bind]. eexists s, _. split; [reflexivity|].
    assert (RL : forall r, In r (map row (seq 0 (length S))) -> length r = kn) by (intros r Q; apply in_map_iff in Q as (x & <- & _); unfold row; rewrite map_length, seq_length; auto).
    split; [rewrite (rows_length _ _ kn RL), map_length, seq_length; reflexivity|]. intros j i J I.
    rewrite (rows_nth _ _ kn 0 [] j i RL) by (rewrite ?map_length, ?seq_length; auto).
    rewrite (nth_indep _ [] (row 0%nat)) by (rewrite map_length, seq_length; auto). rewrite (map_nth row (seq 0 (length S)) 0%nat j). rewrite seq_nth by auto. rewrite Nat.add_0_l. unfold row.
    rewrite (nth_indep _ 0 (out j 0%nat)) by (rewrite map_length, seq_length; auto). rewrite (map_nth (out j) (seq 0 kn) 0%nat i). rewrite seq_nth by auto. rewrite Nat.add_0_l.
    unfold out. rewrite input_sum, output_sum, Rplus_0_l. rewrite (near_sum S w (nth j S zero) i (fun m => negb (Nat.eqb m j))).
    unfold exact_sum. fold km. set (g := fun k => rsum km (fun c => nth (km * k + c) w 0 * kernel_number d f kk (tr (nth j S zero)) (tr (nth k S zero)) i c)).
    assert (SELF : rsum km (fun c => nth c (nth j (inputs_of w (length S)) []) 0 * kernel_number d f kk zero zero i c) = rsum (length S) (fun k => if Nat.eqb k j then g k else 0)).
    { rewrite (rsum_single (length S) j) by (auto; intros k _ NE; apply Nat.eqb_neq in NE; rewrite NE; reflexivity). rewrite Nat.eqb_refl. unfold g. apply rsum_ext. intros c C.
      rewrite inputs_nth by auto. rewrite (kernel_same d f kk (tr (nth j S zero))). reflexivity. }
    rewrite SELF, <- rsum_plus. apply rsum_ext. intros k K. unfold g, tr, km. destruct (Nat.eqb k j); cbn [negb]; ring.
Qed.
End Direct.

(** ** Both parts of a spheroidal function *)

Lemma segment_added : forall first len v y, length v = len -> (first + len <= length y)%nat ->
  exists y', add_segment first len v y = Ok y' /\ length y' = length y /\
  forall r, (r < length y)%nat -> nth r y' 0 = if ((first <=? r) && (r <? first + len))%nat then nth r y 0 + nth (r - first) v 0 else nth r y 0.
Proof.
  intros first len v y L B. unfold add_segment. rewrite L, Nat.eqb_refl. rewrite (proj2 (Nat.leb_le _ _) B). cbn [andb].
  eexists. split; [reflexivity|]. split; [rewrite map_length, seq_length; auto|]. intros r RL.
  set (g := fun r => if ((first <=? r) && (r <? first + len))%nat then nth r y 0 + nth (r - first) v 0 else nth r y 0).
  rewrite (nth_indep _ 0 (g 0%nat)) by (rewrite map_length, seq_length; auto). rewrite (map_nth g (seq 0 (length y)) 0%nat r), seq_nth by auto. reflexivity.
Qed.

Definition defined_at (d : nat) (f : function) (kk : kernel_kind) (S T : list vec) : Prop :=
  forall x y i j, In x T -> In y S ->
  exists r, kernel_entry d (f_kind f) (f_p0 f) (f_p1 f) (f_a f) kk i j (difference (transformed d f x) (transformed d f y)) = Num r.

Lemma parts_sum : forall d f kk sp, f_kind f = Sp sp Full -> forall S T, defined_at d f kk S T -> forall w x i, In x T ->
  exact_sum d (with_kind f (Sp sp DirectPart)) kk S w x i + exact_sum d (with_kind f (Sp sp FastPart)) kk S w x i = exact_sum d f kk S w x i.
Proof.
  intros d f kk sp K S T D w x i X. unfold exact_sum. rewrite <- rsum_plus. apply rsum_ext. intros k KL. rewrite <- rsum_plus. apply rsum_ext. intros j J.
  rewrite <- Rmult_plus_distr_l. f_equal. destruct (D x (nth k S zero) i j X (nth_In S zero KL)) as (r & E). unfold kernel_number.
  change (transformed d (with_kind f (Sp sp DirectPart))) with (transformed d f). change (transformed d (with_kind f (Sp sp FastPart))) with (transformed d f).
  cbn [with_kind f_kind f_p0 f_p1 f_a]. fold (difference (transformed d f x) (transformed d f (nth k S zero))). rewrite E. rewrite K in E.
  rewrite <- (split_kernel d sp (f_p0 f) (f_p1 f) (f_a f) kk i j) in E. unfold plus in E.
  destruct (kernel_entry d (Sp sp DirectPart) (f_p0 f) (f_p1 f) (f_a f) kk i j (difference (transformed d f x) (transformed d f (nth k S zero)))) as [a| |];
  destruct (kernel_entry d (Sp sp FastPart) (f_p0 f) (f_p1 f) (f_a f) kk i j (difference (transformed d f x) (transformed d f (nth k S zero)))) as [b| |];
  cbn [res_map2] in E; try discriminate. injection E as <-. reflexivity.
Qed.

Lemma both_contract : forall own km kn A B gA gB g fineA fineB JA JB, contract A own km kn gA fineA JA -> contract B own km kn gB fineB JB ->
  forall fine : list vec -> list vec -> Prop, (forall S T, fine S T -> fineA S T /\ fineB S T) ->
  (forall S T w x i, fine S T -> In x T -> gA S w x i + gB S w x i = g S w x i) ->
  contract (both_machine own kn A B) own km kn g fine
    (fun s b S T w => JA (bs_direct _ _ s) b S T w /\ JB (bs_fast _ _ s) b S T w /\ bs_count _ _ s = length T).
Proof.
  intros own km kn A B gA gB g fineA fineB JA JB CA CB fine FI SUM.
  split; cbn [both_machine m_state m_new m_accuracy m_source m_target m_weights m_evaluate bs_direct bs_fast bs_count].
  - split; [apply (c_new _ _ _ _ _ _ _ CA)|]. split; [apply (c_new _ _ _ _ _ _ _ CB)|reflexivity].
  - intros s b S T w a (HA & HB & HC). split; [apply (c_acc _ _ _ _ _ _ _ CA); auto|]. split; [apply (c_acc _ _ _ _ _ _ _ CB); auto|auto].
  - intros s b S T w p (HA & HB & HC). split; [eapply (c_src _ _ _ _ _ _ _ CA); eauto|]. split; [eapply (c_src _ _ _ _ _ _ _ CB); eauto|]. destruct own; auto.
  - intros s b S T w p (HA & HB & HC). split; [apply (c_trg _ _ _ _ _ _ _ CA); auto|]. split; [apply (c_trg _ _ _ _ _ _ _ CB); auto|]. destruct own; auto.
  - intros s b S T w v (HA & HB & HC) L. destruct (c_wts _ _ _ _ _ _ _ CA _ _ _ _ _ v HA L) as (a & EA & HA'). destruct (c_wts _ _ _ _ _ _ _ CB _ _ _ _ _ v HB L) as (c & EB & HB').
    rewrite EA. cbn [bind]. rewrite EB. cbn [bind]. eexists. split; [reflexivity|]. cbn. auto.
  - intros s b S T w s' r (HA & HB & HC) EV. unfold both_evaluate in EV. destruct (m_evaluate A (bs_direct _ _ s)) as [[a [ya|e]]|e|] eqn:EA; cbn [bind] in EV; try discriminate.
    + destruct (add_segment 0 _ ya _) as [y|e|]; cbn [bind] in EV; try discriminate.
      destruct (m_evaluate B (bs_fast _ _ s)) as [[c [yb|e]]|e|] eqn:EB; cbn [bind] in EV; try discriminate.
      * destruct (add_segment 0 _ yb _) as [y'|e|]; cbn [bind] in EV; try discriminate. injection EV as <- _. cbn.
        split; [eapply (c_run _ _ _ _ _ _ _ CA); eauto|]. split; [eapply (c_run _ _ _ _ _ _ _ CB); eauto|auto].
      * injection EV as <- _. cbn. split; [eapply (c_run _ _ _ _ _ _ _ CA); eauto|]. split; [eapply (c_run _ _ _ _ _ _ _ CB); eauto|auto].
    + injection EV as <- _. cbn. split; [eapply (c_run _ _ _ _ _ _ _ CA); eauto|]. auto.
  - intros s S T w (HA & HB & HC) F. destruct (FI S T F) as [FA FB].
    destruct (c_out _ _ _ _ _ _ _ CA _ _ _ _ HA FA) as (a & ya & EA & LA & TA). destruct (c_out _ _ _ _ _ _ _ CB _ _ _ _ HB FB) as (c & yb & EB & LB & TB).
    unfold both_evaluate. rewrite EA. cbn [bind]. rewrite HC.
    destruct (segment_added 0 (kn * length T) ya (repeat 0 (kn * length T)) LA) as (y1 & E1 & L1 & N1); [rewrite repeat_length; lia|]. rewrite repeat_length in L1, N1.
    destruct (segment_added 0 (kn * length T) yb y1 LB) as (y2 & E2 & L2 & N2); [lia|]. rewrite L1 in L2, N2.
    rewrite E1. cbn [bind]. rewrite EB. cbn [bind]. rewrite E2. cbn [bind]. eexists _, y2. split; [reflexivity|]. split; [exact L2|]. intros j i J I.
    assert (Q : (kn * j + i < kn * length T)%nat) by nia.
    rewrite N2, N1 by auto. cbn [Nat.leb andb]. rewrite Nat.add_0_l, (proj2 (Nat.ltb_lt _ _) Q), Nat.sub_0_r. rewrite nth_repeat, TA, TB by auto.
    rewrite Rplus_0_l. apply (SUM S T); auto. apply nth_In. auto.
Qed.
Lemma contract_weaken : forall M own km kn g (fine fine' : list vec -> list vec -> Prop) J, contract M own km kn g fine J -> (forall S T, fine' S T -> fine S T) ->
  contract M own km kn g fine' J.
Proof. intros M own km kn g fine fine' J [A B C D E F G] W. split; auto. Qed.

Section Evaluators.
Variable d : nat.
Variable rest : function -> kernel_kind -> bool -> fenv vec.
Variable near : list vec -> vec -> R -> list nat.
Variable fresh : nat -> list R.
Hypothesis REST : sound_rest rest.
Hypothesis SEARCH : sound_search d near.

Definition small_for (own : bool) (S T : list vec) : Prop :=
  if own then (N.of_nat (length S) < 1024)%N else (N.of_nat (length S) * N.of_nat (length T) < 1048576)%N.
Definition fine_for (own : bool) (f : function) (kk : kernel_kind) (S T : list vec) : Prop := small_for own S T /\ defined_at d f kk S T.

Lemma evaluator_contract : forall own f kk, range_ok (f_kind f) (f_p1 f) ->
  exists J, contract (make_evaluator d rest near fresh own f kk) own (kernel_inputs d kk) (kernel_outputs d kk) (exact_sum d f kk) (fine_for own f kk) J.
Proof using REST SEARCH.
  intros own f kk RO.
  assert (FAST : forall f', exists J, contract (if own then fmm_symmetric_machine d f' kk (rest f' kk true) else fmm_machine d f' kk (rest f' kk false)) own
    (kernel_inputs d kk) (kernel_outputs d kk) (exact_sum d f' kk) (small_for own) J).
  { intros f'. destruct own; eexists; (eapply contract_weaken; [first [apply fmm_symmetric_contract; apply REST|apply fmm_contract; apply REST]|]); cbv beta.
    - intros S T A. exact A.
    - intros S T A. exact A. }
  assert (DIRECT : forall f' radius, 0 < f_p1 f' -> support_radius (f_kind f') (f_p1 f') = Some radius ->
    exists J, contract (if own then direct_symmetric_machine d f' kk near fresh else direct_machine d f' kk near fresh) own
    (kernel_inputs d kk) (kernel_outputs d kk) (exact_sum d f' kk) (fun _ _ => True) J).
  { intros f' radius P RA. destruct own; eexists; [exact (direct_symmetric_contract d f' kk near fresh SEARCH P radius RA)|exact (direct_contract d f' kk near fresh SEARCH P radius RA)]. }
  assert (F : exists J, contract (if own then fmm_symmetric_machine d f kk (rest f kk true) else fmm_machine d f kk (rest f kk false)) own
    (kernel_inputs d kk) (kernel_outputs d kk) (exact_sum d f kk) (fine_for own f kk) J).
  { destruct (FAST f) as (J & C). exists J. eapply contract_weaken; [exact C|]. intros S T (A & _). exact A. }
  assert (D : forall radius, 0 < f_p1 f -> support_radius (f_kind f) (f_p1 f) = Some radius ->
    exists J, contract (if own then direct_symmetric_machine d f kk near fresh else direct_machine d f kk near fresh) own
    (kernel_inputs d kk) (kernel_outputs d kk) (exact_sum d f kk) (fine_for own f kk) J).
  { intros radius P RA. destruct (DIRECT f radius P RA) as (J & C). exists J. eapply contract_weaken; [exact C|]. intros S T _. exact Logic.I. }
  unfold make_evaluator. destruct (f_kind f) as [| | | | | | | | | | | |sp [| |]] eqn:K; try exact F; try (eapply D; [exact RO|reflexivity]).
  destruct (DIRECT (with_kind f (Sp sp DirectPart)) (kRho0 sp * f_p1 f) RO eq_refl) as (JA & CA). destruct (FAST (with_kind f (Sp sp FastPart))) as (JB & CB).
  eexists. eapply both_contract; [exact CA|exact CB| |].
  - intros S T (A & _). auto.
  - intros S T w x i (_ & DF) X. eapply parts_sum; eauto.
Qed.
End Evaluators.

(** ** The operator *)

Section Operator.
Variable d : nat.
Variable nugget : R.
Variable accuracy grad_accuracy : option R.
Variable rest : function -> kernel_kind -> bool -> fenv vec.
Variable near : list vec -> vec -> R -> list nat.
Variable fresh : nat -> list R.
Variable l : nat.
Variable basis : nodes vec -> nat -> nat -> R.
Hypothesis REST : sound_rest rest.
Hypothesis SEARCH : sound_search d near.

Definition behaves (o : object) (own : bool) (f : function) (kk : kernel_kind) (b : bool) (S T : list vec) (w : option (list R)) : Prop :=
  exists J, contract (o_machine o) own (kernel_inputs d kk) (kernel_outputs d kk) (exact_sum d f kk) (fine_for d own f kk) J /\ J (o_state o) b S T w.

Lemma behaves_new : forall own f kk, range_ok (f_kind f) (f_p1 f) -> behaves (create (make_evaluator d rest near fresh own f kk)) own f kk false [] [] None.
Proof using REST SEARCH. intros own f kk RO. destruct (evaluator_contract d rest near fresh REST SEARCH own f kk RO) as (J & C). exists J. split; [exact C|]. apply (c_new _ _ _ _ _ _ _ C). Qed.
Lemma behaves_source : forall o own f kk b S T w p, behaves o own f kk b S T w -> behaves (change o (fun M st => m_source M st p)) own f kk true p (if own then p else T) None.
Proof using Type. intros o own f kk b S T w p (J & C & H). exists J. split; [exact C|]. eapply (c_src _ _ _ _ _ _ _ C). exact H. Qed.
Lemma behaves_target : forall o own f kk b S T w p, behaves o own f kk b S T w -> behaves (change o (fun M st => m_target M st p)) own f kk b S (if own then T else p) w.
Proof using Type. intros o own f kk b S T w p (J & C & H). exists J. split; [exact C|]. apply (c_trg _ _ _ _ _ _ _ C). exact H. Qed.
Lemma behaves_accuracy : forall o own f kk b S T w a, behaves o own f kk b S T w -> behaves (change o (fun M st => m_accuracy M st a)) own f kk b S T w.
Proof using Type. intros o own f kk b S T w p (J & C & H). exists J. split; [exact C|]. apply (c_acc _ _ _ _ _ _ _ C). exact H. Qed.
Lemma behaves_load : forall o own f kk b S T w v, behaves o own f kk b S T w -> length v = (kernel_inputs d kk * length S)%nat ->
  exists o', load o v = Ok o' /\ behaves o' own f kk b S T (Some v).
Proof using Type.
  intros o own f kk b S T w v (J & C & H) L. destruct (c_wts _ _ _ _ _ _ _ C _ _ _ _ _ v H L) as (s & E & H'). unfold load. rewrite E. cbn [bind].
  eexists. split; [reflexivity|]. exists J. split; [exact C|exact H'].
Qed.
Lemma behaves_run : forall o own f kk b S T w first len y o' r, behaves o own f kk b S T w -> add_evaluated o first len y = Ok (o', r) -> behaves o' own f kk b S T w.
Proof using Type.
  intros o own f kk b S T w first len y o' r (J & C & H) E. unfold add_evaluated in E.
  destruct (m_evaluate (o_machine o) (o_state o)) as [[s [v|e]]|e|] eqn:EV; cbn [bind] in E; try discriminate.
  - destruct (add_segment first len v y) as [y'|e|]; cbn [bind] in E; try discriminate. injection E as <- _. exists J. split; [exact C|]. eapply (c_run _ _ _ _ _ _ _ C); eauto.
  - injection E as <- _. exists J. split; [exact C|]. eapply (c_run _ _ _ _ _ _ _ C); eauto.
Qed.
Lemma behaves_add : forall o own f kk S T w first len y, behaves o own f kk true S T (Some w) -> fine_for d own f kk S T ->
  len = (kernel_outputs d kk * length T)%nat -> (first + len <= length y)%nat ->
  exists o' v y', add_evaluated o first len y = Ok (o', inl y') /\ behaves o' own f kk true S T (Some w) /\ tabulates (kernel_outputs d kk) v T (exact_sum d f kk S w) /\
  length y' = length y /\ forall r, (r < length y)%nat -> nth r y' 0 = if ((first <=? r) && (r <? first + len))%nat then nth r y 0 + nth (r - first) v 0 else nth r y 0.
Proof using Type.
  intros o own f kk S T w first len y (J & C & H) F L B. destruct (c_out _ _ _ _ _ _ _ C _ _ _ _ H F) as (s & v & E & TA).
  assert (LV : length v = len) by (rewrite L; apply TA). destruct (segment_added first len v y LV B) as (y' & E' & L' & N').
  exists (Object (o_machine o) s), v, y'. unfold add_evaluated. rewrite E. cbn [bind]. rewrite E'. cbn [bind]. split; [reflexivity|]. split; [|split; [exact TA|split; [exact L'|exact N']]].
  exists J. split; [exact C|]. cbn [o_machine o_state]. eapply (c_run _ _ _ _ _ _ _ C); eauto.
Qed.

Definition four_ok (n : nodes vec) (b : bool) (f : function) (q : four) : Prop :=
  let P := point_rows n in let G := gradient_rows n in exists wa wf wt wh,
  behaves (oa q) true f KValue b P P wa /\ behaves (of q) false f KGradient b G P wf /\ behaves (oft q) false f KGradientT b P G wt /\ behaves (oh q) true f KHessian b G G wh.
Definition operator_ok (fs : list function) (b : bool) (s : operator_state) : Prop := Forall2 (four_ok (os_nodes s) b) fs (os_fours s).
Definition fine_all (n : nodes vec) (f : function) : Prop :=
  let P := point_rows n in let G := gradient_rows n in
  fine_for d true f KValue P P /\ fine_for d false f KGradient G P /\ fine_for d false f KGradientT P G /\ fine_for d true f KHessian G G.

Lemma points_length' : forall n, length (point_rows n) = Operator.mu vec n.
Proof using Type. intros n. unfold point_rows. rewrite map_length, seq_length. reflexivity. Qed.
Lemma gradients_length : forall n, length (gradient_rows n) = Operator.sigma vec n.
Proof using Type. intros n. unfold gradient_rows. rewrite map_length, seq_length. reflexivity. Qed.
Lemma points_nth : forall n k, (k < Operator.mu vec n)%nat -> nth k (point_rows n) zero = pt vec n k.
Proof using Type.
  intros n k K. unfold point_rows. rewrite (nth_indep _ zero (pt vec n 0%nat)) by (rewrite map_length, seq_length; auto).
  rewrite (map_nth (pt vec n) (seq 0 (Operator.mu vec n)) 0%nat k), seq_nth by auto. reflexivity.
Qed.
Lemma gradients_nth : forall n k, (k < Operator.sigma vec n)%nat -> nth k (gradient_rows n) zero = gpt vec n k.
Proof using Type.
  intros n k K. unfold gradient_rows. rewrite (nth_indep _ zero (gpt vec n 0%nat)) by (rewrite map_length, seq_length; auto).
  rewrite (map_nth (gpt vec n) (seq 0 (Operator.sigma vec n)) 0%nat k), seq_nth by auto. reflexivity.
Qed.

Lemma new_ok : forall fs, Forall (fun f => range_ok (f_kind f) (f_p1 f)) fs -> operator_ok fs false (new_operator d rest near fresh fs).
Proof using REST SEARCH.
  intros fs RO. unfold operator_ok, new_operator. cbn [os_nodes os_fours]. induction RO as [|f fs R0 RO IH]; cbn [map]; constructor; auto.
  exists None, None, None, None. cbn [oa of oft oh]. split; [|split; [|split]]; apply behaves_new; auto.
Qed.
Lemma set_ok : forall fs b s n, operator_ok fs b s -> operator_ok fs true (set_points accuracy grad_accuracy s n).
Proof using Type.
  intros fs b s n H. unfold operator_ok, set_points in *. cbn [os_nodes os_fours]. generalize (length (os_fours s)). intros count. revert H. generalize (os_fours s). intros qs H.
  induction H as [|f q fs qs Q H IH]; cbn [map]; constructor; auto. destruct Q as (wa & wf & wt & wh & A & F & FT & HH). exists None, None, None, None. cbn [oa of oft oh].
  split; [|split; [|split]]; apply behaves_accuracy.
  - exact (behaves_source _ _ _ _ _ _ _ _ (point_rows n) A).
  - exact (behaves_target _ _ _ _ _ _ _ _ (point_rows n) (behaves_source _ _ _ _ _ _ _ _ (gradient_rows n) F)).
  - exact (behaves_target _ _ _ _ _ _ _ _ (gradient_rows n) (behaves_source _ _ _ _ _ _ _ _ (point_rows n) FT)).
  - exact (behaves_source _ _ _ _ _ _ _ _ (gradient_rows n) HH).
Qed.

Section Step.
Variable n : nodes vec.
Variable w : list R.
Let m := Operator.mu vec n.
Let k := (d * Operator.sigma vec n)%nat.
Hypothesis SIZE : length w = (m + k + l)%nat.
Let wp := firstn m w.
Let wg := firstn k (skipn m w).

Lemma heads : length wp = (1 * length (point_rows n))%nat /\ length wg = (d * length (gradient_rows n))%nat.
Proof using SIZE. unfold wp, wg. rewrite points_length', gradients_length, !firstn_length, skipn_length, SIZE. fold m k. lia. Qed.

Lemma loads : forall b f q, four_ok n b f q -> exists a c e h,
  load (oa q) wp = Ok a /\ load (of q) wg = Ok c /\ load (oft q) wp = Ok e /\ load (oh q) wg = Ok h /\
  behaves a true f KValue b (point_rows n) (point_rows n) (Some wp) /\ behaves c false f KGradient b (gradient_rows n) (point_rows n) (Some wg) /\
  behaves e false f KGradientT b (point_rows n) (gradient_rows n) (Some wp) /\ behaves h true f KHessian b (gradient_rows n) (gradient_rows n) (Some wg).
Proof using SIZE.
  intros b f q (wa & wf & wt & wh & A & F & FT & HH). destruct heads as [HP HG].
  destruct (behaves_load _ _ _ _ _ _ _ _ wp A HP) as (a & Ea & Ba). destruct (behaves_load _ _ _ _ _ _ _ _ wg F HG) as (c & Ec & Bc).
  destruct (behaves_load _ _ _ _ _ _ _ _ wp FT HP) as (e & Ee & Be). destruct (behaves_load _ _ _ _ _ _ _ _ wg HH HG) as (h & Eh & Bh).
  exists a, c, e, h. auto 10.
Qed.
Lemma four_kept : forall b f q y q' r, four_ok n b f q -> apply_four d n w q y = Ok (q', r) -> four_ok n b f q'.
Proof using SIZE.
  intros b f q y q' r Q E. destruct (loads b f q Q) as (a & c & e & h & La & Lc & Le & Lh & Ba & Bc & Be & Bh). unfold apply_four in E. fold m k wp wg in E.
  rewrite La in E. cbn [bind] in E. rewrite Lc in E. cbn [bind] in E. rewrite Le in E. cbn [bind] in E. rewrite Lh in E. cbn [bind] in E.
  destruct (add_evaluated a 0 m y) as [[a' [y1|x]]|x|] eqn:E1; cbn [bind] in E; try discriminate; pose proof (behaves_run _ _ _ _ _ _ _ _ _ _ _ _ _ Ba E1) as Ba'.
  2: { injection E as <- _. exists (Some wp), (Some wg), (Some wp), (Some wg). auto. }
  destruct (add_evaluated c 0 m y1) as [[c' [y2|x]]|x|] eqn:E2; cbn [bind] in E; try discriminate; pose proof (behaves_run _ _ _ _ _ _ _ _ _ _ _ _ _ Bc E2) as Bc'.
  2: { injection E as <- _. exists (Some wp), (Some wg), (Some wp), (Some wg). auto. }
  destruct (add_evaluated e m k y2) as [[e' [y3|x]]|x|] eqn:E3; cbn [bind] in E; try discriminate; pose proof (behaves_run _ _ _ _ _ _ _ _ _ _ _ _ _ Be E3) as Be'.
  2: { injection E as <- _. exists (Some wp), (Some wg), (Some wp), (Some wg). auto. }
  destruct (add_evaluated h m k y3) as [[h' r']|x|] eqn:E4; cbn [bind fst snd] in E; try discriminate. pose proof (behaves_run _ _ _ _ _ _ _ _ _ _ _ _ _ Bh E4) as Bh'.
  injection E as <- _. exists (Some wp), (Some wg), (Some wp), (Some wg). auto.
Qed.

(** What one pass of the loop adds to a row. *)
Definition added (f : function) (r : nat) : R :=
  if (r <? m)%nat then exact_sum d f KValue (point_rows n) wp (pt vec n r) 0 + exact_sum d f KGradient (gradient_rows n) wg (pt vec n r) 0
  else if (r <? m + k)%nat then
    exact_sum d f KGradientT (point_rows n) wp (gpt vec n ((r - m) / d)) ((r - m) mod d) + exact_sum d f KHessian (gradient_rows n) wg (gpt vec n ((r - m) / d)) ((r - m) mod d)
  else 0.
Lemma four_adds : forall f q y, four_ok n true f q -> fine_all n f -> length y = (m + k + l)%nat ->
  exists q' y', apply_four d n w q y = Ok (q', inl y') /\ four_ok n true f q' /\ length y' = length y /\
  forall r, (r < length y)%nat -> nth r y' 0 = nth r y 0 + added f r.
Proof using SIZE.
  clear REST SEARCH.
  intros f q y Q (FA & FF & FT & FH) LY. destruct (loads true f q Q) as (a & c & e & h & La & Lc & Le & Lh & Ba & Bc & Be & Bh). unfold apply_four. fold m k wp wg.
  rewrite La. cbn [bind]. rewrite Lc. cbn [bind]. rewrite Le. cbn [bind]. rewrite Lh. cbn [bind].
  destruct (behaves_add a _ _ _ _ _ _ 0 m y Ba FA) as (a' & va & y1 & E1 & B1 & T1 & L1 & N1); [rewrite points_length'; cbn [kernel_outputs]; unfold m; lia|lia|].
  destruct (behaves_add c _ _ _ _ _ _ 0 m y1 Bc FF) as (c' & vc & y2 & E2 & B2 & T2 & L2 & N2); [rewrite points_length'; cbn [kernel_outputs]; unfold m; lia|lia|].
  destruct (behaves_add e _ _ _ _ _ _ m k y2 Be FT) as (e' & ve & y3 & E3 & B3 & T3 & L3 & N3); [rewrite gradients_length; reflexivity|lia|].
  destruct (behaves_add h _ _ _ _ _ _ m k y3 Bh FH) as (h' & vh & y4 & E4 & B4 & T4 & L4 & N4); [rewrite gradients_length; reflexivity|lia|].
  rewrite E1. cbn [bind]. rewrite E2. cbn [bind]. rewrite E3. cbn [bind]. rewrite E4. cbn [bind fst snd].
  eexists _, y4. split; [reflexivity|]. split; [exists (Some wp), (Some wg), (Some wp), (Some wg); auto|]. split; [lia|].
  intros r RL. rewrite N4, N3, N2, N1 by lia. cbn [Nat.leb andb]. rewrite Nat.add_0_l, Nat.sub_0_r. unfold added. fold m.
  destruct (Nat.ltb_spec r m) as [LT|GE].
  - rewrite (proj2 (Nat.leb_gt m r) LT). cbn [andb]. destruct T1 as [_ T1]. destruct T2 as [_ T2]. cbn [kernel_outputs] in T1, T2.
    specialize (T1 r 0%nat). specialize (T2 r 0%nat). rewrite points_length' in T1, T2. rewrite points_nth in T1, T2 by exact LT.
    replace (1 * r + 0)%nat with r in T1, T2 by lia. rewrite T1, T2 by (auto; lia). ring.
  - rewrite (proj2 (Nat.leb_le m r) GE). cbn [andb]. destruct (Nat.ltb_spec r (m + k)) as [LT2|GE2]; [|ring].
    assert (D0 : d <> 0%nat) by (intros ->; unfold k in LT2; lia).
    pose proof (Nat.div_mod (r - m) d D0) as DM. pose proof (Nat.mod_upper_bound (r - m) d D0) as MB.
    assert (JB : ((r - m) / d < Operator.sigma vec n)%nat) by (apply Nat.div_lt_upper_bound; [exact D0|fold k; lia]).
    destruct T3 as [_ T3]. destruct T4 as [_ T4]. cbn [kernel_outputs] in T3, T4. specialize (T3 _ _ ltac:(rewrite gradients_length; exact JB) MB).
    specialize (T4 _ _ ltac:(rewrite gradients_length; exact JB) MB). rewrite gradients_nth in T3, T4 by exact JB. rewrite <- DM in T3, T4. rewrite T3, T4. ring.
Qed.
Lemma fours_kept : forall b fs qs y qs' r, Forall2 (four_ok n b) fs qs -> apply_fours d n w qs y = Ok (qs', r) -> Forall2 (four_ok n b) fs qs'.
Proof using SIZE.
  intros b fs qs y qs' r H. revert y qs' r. induction H as [|f q fs qs Q H IH]; intros y qs' r E; cbn [apply_fours] in E.
  - injection E as <- _. constructor.
  - destruct (apply_four d n w q y) as [[q' [y'|e]]|e|] eqn:EQ; cbn [bind] in E; try discriminate.
    + destruct (apply_fours d n w qs y') as [[qs'' r']|e|] eqn:ES; cbn [bind fst snd] in E; try discriminate. injection E as <- _. constructor; [eapply four_kept; eauto|eapply IH; eauto].
    + injection E as <- _. constructor; auto. eapply four_kept; eauto.
Qed.
Lemma fours_add : forall fs qs y, Forall2 (four_ok n true) fs qs -> Forall (fine_all n) fs -> length y = (m + k + l)%nat ->
  exists qs' y', apply_fours d n w qs y = Ok (qs', inl y') /\ Forall2 (four_ok n true) fs qs' /\ length y' = length y /\
  forall r, (r < length y)%nat -> nth r y' 0 = nth r y 0 + lsum fs (fun f => added f r).
Proof using SIZE.
  intros fs qs y H. revert y. induction H as [|f q fs qs Q H IH]; intros y F L.
  - exists [], y. split; [reflexivity|]. split; [constructor|]. split; [reflexivity|]. intros r _. cbn. ring.
  - inversion F as [|? ? F1 F2]; subst. destruct (four_adds f q y Q F1 L) as (q' & y1 & E1 & Q1 & L1 & N1). destruct (IH y1 F2) as (qs' & y2 & E2 & Q2 & L2 & N2); [lia|].
    exists (q' :: qs'), y2. cbn [apply_fours]. rewrite E1. cbn [bind]. rewrite E2. cbn [bind fst snd]. split; [reflexivity|]. split; [constructor; auto|]. split; [lia|].
    intros r RL. rewrite N2, N1 by lia. cbn [lsum]. ring.
Qed.
End Step.

(** ** Calls *)
Lemma call_kept : forall fs b s w s' r, operator_ok fs b s -> call d nugget l basis s w = Ok (s', r) -> operator_ok fs b s' /\ os_nodes s' = os_nodes s.
Proof using Type.
  intros fs b s w s' r H E. unfold call in E. destruct (Nat.eqb_spec (length w) (size vec d (os_nodes s) + l)) as [L|L]; cbn [negb] in E; [|discriminate].
  match type of E with context [apply_fours d ?n w ?q ?y] => destruct (apply_fours d n w q y) as [[qs r']|e|] eqn:EA end; cbn [bind fst snd] in E; try discriminate.
  pose proof (fours_kept _ _ L b fs _ _ _ _ H EA) as K. destruct r' as [y|e].
  - destruct (Nat.eqb l 0); injection E as <- _; split; auto.
  - injection E as <- _; split; auto.
Qed.
Lemma used_kept : forall fs us b s s', operator_ok fs b s -> used d nugget accuracy grad_accuracy l basis s us = Ok s' -> exists b', operator_ok fs b' s'.
Proof using Type.
  intros fs us. induction us as [|[n|w] us IH]; intros b s s' H E; cbn [used] in E.
  - injection E as <-. eauto.
  - eapply IH; [eapply set_ok; exact H|exact E].
  - destruct (call d nugget l basis s w) as [[s1 r]|e|] eqn:EC; cbn [bind fst] in E; try discriminate. destruct (call_kept _ _ _ _ _ _ H EC) as [H1 _]. eapply IH; eauto.
Qed.
Lemma called_kept : forall fs ws s s', operator_ok fs true s -> used d nugget accuracy grad_accuracy l basis s (map Call ws) = Ok s' ->
  operator_ok fs true s' /\ os_nodes s' = os_nodes s.
Proof using Type.
  intros fs ws. induction ws as [|w ws IH]; intros s s' H E; cbn [used map] in E.
  - injection E as <-. auto.
  - destruct (call d nugget l basis s w) as [[s1 r]|e|] eqn:EC; cbn [bind fst] in E; try discriminate. destruct (call_kept _ _ _ _ _ _ H EC) as [H1 N1].
    destruct (IH _ _ H1 E) as [H2 N2]. split; [exact H2|congruence].
Qed.
Lemma used_app : forall us vs s, used d nugget accuracy grad_accuracy l basis s (us ++ vs) =
  bind (used d nugget accuracy grad_accuracy l basis s us) (fun s' => used d nugget accuracy grad_accuracy l basis s' vs).
Proof using Type.
  intros us. induction us as [|[n|w] us IH]; intros vs s; cbn [used app bind]; auto.
  destruct (call d nugget l basis s w) as [[s1 r]|e|]; cbn [bind fst]; auto.
Qed.
Lemma used_shape : forall fs us n ws s, Forall (fun f => range_ok (f_kind f) (f_p1 f)) fs ->
  used d nugget accuracy grad_accuracy l basis (new_operator d rest near fresh fs) (us ++ SetNodes n :: map Call ws) = Ok s -> operator_ok fs true s /\ os_nodes s = n.
Proof using REST SEARCH.
  intros fs us n ws s RO E. rewrite used_app in E. destruct (used d nugget accuracy grad_accuracy l basis (new_operator d rest near fresh fs) us) as [s1|e|] eqn:E1; cbn [bind used] in E; try discriminate.
  destruct (used_kept fs us false _ _ (new_ok fs RO) E1) as (b & H1). destruct (called_kept fs ws _ _ (set_ok fs b s1 n H1) E) as [H2 N]. split; [exact H2|exact N].
Qed.

(** The evaluators of an exact operator, as Model/Operator.v takes them. *)
Definition exact_four (n : nodes vec) (f : function) : fast :=
  Fast (fun w i => exact_sum d f KValue (point_rows n) (map w (seq 0 (Operator.mu vec n))) (pt vec n i) 0)
       (fun w i => exact_sum d f KGradient (gradient_rows n) (map w (seq 0 (d * Operator.sigma vec n))) (pt vec n i) 0)
       (fun w i => exact_sum d f KGradientT (point_rows n) (map w (seq 0 (Operator.mu vec n))) (gpt vec n (i / d)) (i mod d))
       (fun w i => exact_sum d f KHessian (gradient_rows n) (map w (seq 0 (d * Operator.sigma vec n))) (gpt vec n (i / d)) (i mod d)).
Lemma nth_seq_map : forall (w : nat -> R) m i, (i < m)%nat -> nth i (map w (seq 0 m)) 0 = w i.
Proof using Type. intros w m i I0. rewrite (nth_indep _ 0 (w 0%nat)) by (rewrite map_length, seq_length; auto). rewrite map_nth, seq_nth by auto. reflexivity. Qed.
Lemma slot_bound : forall a b j c, (j < b)%nat -> (c < a)%nat -> (a * j + c < a * b)%nat.
Proof using Type. intros a b j c J C. nia. Qed.
Lemma transformed_dif : forall t x y, (fun e => transformed d (function_of t) x e - transformed d (function_of t) y e) = mat_vec d (ta t) (difference x y).
Proof using Type.
  intros t x y. apply functional_extensionality. intros e. unfold transformed, mat_vec, function_of, difference. cbn [f_a].
  rewrite <- rsum_minus. apply rsum_ext. intros k _. ring.
Qed.
Lemma number_value : forall t x y i j, kernel_number d (function_of t) KValue (transformed d (function_of t) x) (transformed d (function_of t) y) i j =
  Operator.ev vec (term_rbf d t) (difference x y).
Proof using Type. intros. unfold kernel_number. rewrite transformed_dif. reflexivity. Qed.
Lemma number_gradient : forall t x y i j, kernel_number d (function_of t) KGradient (transformed d (function_of t) x) (transformed d (function_of t) y) i j =
  - Operator.gr vec (term_rbf d t) (difference x y) j.
Proof using Type.
  intros. unfold kernel_number. rewrite transformed_dif. unfold function_of. cbn [kernel_entry f_kind f_p0 f_p1 f_a term_rbf Operator.gr]. unfold evaluate_gradient.
  destruct (gradient_at d (tk t) (t0 t) (t1 t) (mat_vec d (ta t) (difference x y))); cbn [res_map component]; ring.
Qed.
Lemma number_transpose : forall t x y i j, kernel_number d (function_of t) KGradientT (transformed d (function_of t) x) (transformed d (function_of t) y) i j =
  Operator.gr vec (term_rbf d t) (difference x y) i.
Proof using Type.
  intros. unfold kernel_number. rewrite transformed_dif. unfold function_of. cbn [kernel_entry f_kind f_p0 f_p1 f_a term_rbf Operator.gr]. unfold evaluate_gradient.
  destruct (gradient_at d (tk t) (t0 t) (t1 t) (mat_vec d (ta t) (difference x y))); cbn [res_map component]; ring.
Qed.
Lemma number_hessian : forall t x y i j, (i < d)%nat -> (j < d)%nat -> kernel_number d (function_of t) KHessian (transformed d (function_of t) x) (transformed d (function_of t) y) i j =
  - Operator.he vec (term_rbf d t) (difference x y) j i.
Proof using Type.
  intros t x y i j I0 J0. destruct (proj2 (proj2 (term_even d t x y)) i j I0 J0) as [_ SY]. change (nat -> R) with vec in SY. rewrite <- SY. unfold kernel_number. rewrite transformed_dif.
  unfold function_of. cbn [kernel_entry f_kind f_p0 f_p1 f_a term_rbf Operator.he]. unfold evaluate_hessian.
  destruct (hessian_at d (tk t) (t0 t) (t1 t) (mat_vec d (ta t) (difference x y))); cbn [res_map entry]; ring.
Qed.
Lemma exact_four_ok : forall n t, exact_fast vec difference d n (term_rbf d t) (exact_four n (function_of t)).
Proof using Type.
  intros n t w. unfold exact_four, exact_sum. cbn [fa ff fft fh kernel_inputs]. rewrite points_length', gradients_length. split.
  - intros i I0. split; apply rsum_ext; intros j J.
    + cbn [rsum]. rewrite points_nth by exact J. rewrite number_value, nth_seq_map by lia. replace (1 * j + 0)%nat with j by lia. ring.
    + apply rsum_ext. intros c C. rewrite gradients_nth by exact J. rewrite number_gradient, nth_seq_map by (apply slot_bound; auto). reflexivity.
  - intros i c I0 C. replace ((d * i + c) / d)%nat with i by (rewrite Nat.mul_comm, Nat.div_add_l, Nat.div_small by lia; lia).
    replace ((d * i + c) mod d)%nat with c by (rewrite Nat.add_comm, Nat.mul_comm, Nat.mod_add, Nat.mod_small by lia; lia).
    split; apply rsum_ext; intros j J.
    + cbn [rsum]. rewrite points_nth by exact J. rewrite number_transpose, nth_seq_map by lia. replace (1 * j + 0)%nat with j by lia. ring.
    + apply rsum_ext. intros b B. rewrite gradients_nth by exact J. rewrite number_hessian, nth_seq_map by (auto using slot_bound). reflexivity.
Qed.
Lemma firstn_seq : forall (w : list R) m, (m <= length w)%nat -> firstn m w = map (fun i => nth i w 0) (seq 0 m).
Proof using Type.
  intros w m L. apply (nth_ext _ _ 0 0); [rewrite firstn_length, map_length, seq_length; lia|]. intros i I0. rewrite firstn_length in I0.
  rewrite nth_seq_map by lia. rewrite <- (firstn_skipn m w) at 2. rewrite app_nth1 by (rewrite firstn_length; lia). reflexivity.
Qed.
Lemma firstn_skip_seq : forall (w : list R) m k, (m + k <= length w)%nat -> firstn k (skipn m w) = map (fun i => nth (m + i) w 0) (seq 0 k).
Proof using Type.
  intros w m k L. rewrite firstn_seq by (rewrite skipn_length; lia). apply map_ext_in. intros i I0. apply in_seq in I0.
  rewrite <- (firstn_skipn m w) at 2. rewrite app_nth2 by (rewrite firstn_length; lia). f_equal. rewrite firstn_length. lia.
Qed.
Lemma added_row : forall n w f r, length w = (Operator.mu vec n + d * Operator.sigma vec n + l)%nat -> (r < size vec d n)%nat ->
  added n w f r = (if (r <? Operator.mu vec n)%nat then fa (exact_four n f) (fun i => nth i w 0) r + ff (exact_four n f) (fun k => nth (Operator.mu vec n + k) w 0) r
    else fft (exact_four n f) (fun i => nth i w 0) (r - Operator.mu vec n)%nat + fh (exact_four n f) (fun k => nth (Operator.mu vec n + k) w 0) (r - Operator.mu vec n)%nat).
Proof using Type.
  intros n w f r L R0. unfold added, exact_four. cbn [fa ff fft fh]. rewrite (firstn_seq w) by lia. rewrite firstn_skip_seq by lia. unfold size in R0.
  destruct (Nat.ltb_spec r (Operator.mu vec n)); [reflexivity|]. destruct (Nat.ltb_spec r (Operator.mu vec n + d * Operator.sigma vec n)); [reflexivity|lia].
Qed.
Lemma added_poly : forall n w f r, (size vec d n <= r)%nat -> added n w f r = 0.
Proof using Type.
  intros n w f r R0. unfold size in R0. unfold added. destruct (Nat.ltb_spec r (Operator.mu vec n)); [lia|].
  destruct (Nat.ltb_spec r (Operator.mu vec n + d * Operator.sigma vec n)); [lia|reflexivity].
Qed.
Lemma fast_fold : forall n (w gw : nat -> R) r (es : list fast) (y : nat -> R),
  fold_left (fun y f r => if (r <? Operator.mu vec n)%nat then y r + fa f w r + ff f gw r
                          else y r + fft f w (r - Operator.mu vec n)%nat + fh f gw (r - Operator.mu vec n)%nat) es y r =
  y r + lsum es (fun f => if (r <? Operator.mu vec n)%nat then fa f w r + ff f gw r else fft f w (r - Operator.mu vec n)%nat + fh f gw (r - Operator.mu vec n)%nat).
Proof using Type.
  intros n w gw r es. induction es as [|e es IH]; intros y; cbn [fold_left lsum]; [ring|]. rewrite IH. destruct (r <? Operator.mu vec n)%nat; ring.
Qed.
Lemma call_exact : forall fs s w, operator_ok fs true s -> let n := os_nodes s in Forall (fine_all n) fs -> length w = (size vec d n + l)%nat ->
  exists s' y, call d nugget l basis s w = Ok (s', inl y) /\ operator_ok fs true s' /\ os_nodes s' = n /\ length y = (size vec d n + l)%nat /\
  forall r, (r < size vec d n + l)%nat -> nth r y 0 = fast_operator vec d nugget l (map (exact_four n) fs) n (basis n) (fun i => nth i w 0) r.
Proof using Type.
  intros fs s w H n F L. unfold call. fold n. rewrite L, Nat.eqb_refl. cbn [negb].
  set (y0 := map (fun r => if (r <? Operator.mu vec n)%nat then nth r w 0 * nugget else 0) (seq 0 (size vec d n + l))).
  assert (L0 : length y0 = (size vec d n + l)%nat) by (unfold y0; rewrite map_length, seq_length; reflexivity).
  destruct (fours_add n w L fs (os_fours s) y0 H F L0) as (qs & y & E & Q & LY & NY). rewrite E. cbn [bind fst snd].
  assert (Y : forall r, (r < size vec d n + l)%nat -> nth r y 0 = (if (r <? Operator.mu vec n)%nat then nth r w 0 * nugget else 0) + lsum fs (fun f => added n w f r)).
  { intros r R0. rewrite NY by lia. f_equal. unfold y0. rewrite nth_seq_map by exact R0. reflexivity. }
  assert (FO : forall r, (r < size vec d n + l)%nat -> fast_operator vec d nugget l (map (exact_four n) fs) n (basis n) (fun i => nth i w 0) r =
    if (r <? size vec d n)%nat then nth r y 0 + mat_vec l (basis n) (fun j => nth (size vec d n + j) w 0) r
    else nth r y 0 + rsum (size vec d n) (fun i => basis n i (r - size vec d n)%nat * nth i w 0)).
  { intros r R0. rewrite (Y r R0). unfold fast_operator. destruct (Nat.ltb_spec r (size vec d n)) as [A|A].
    - f_equal. rewrite fast_fold. f_equal. rewrite lsum_map. apply lsum_ext. intros f _. symmetry. apply added_row; [exact L|exact A].
    - rewrite (lsum_ext _ fs _ (fun _ => 0)) by (intros f _; apply added_poly; exact A). assert (Z : lsum fs (fun _ => 0) = 0) by (clear; induction fs; cbn; lra). rewrite Z.
      destruct (Nat.ltb_spec r (Operator.mu vec n)); [unfold size in A; lia|]. ring. }
  destruct (Nat.eqb_spec l 0) as [Z|Z].
  - eexists _, y. split; [reflexivity|]. split; [exact Q|]. split; [reflexivity|]. split; [lia|]. intros r R0. rewrite (FO r R0).
    destruct (Nat.ltb_spec r (size vec d n)); [|lia]. rewrite Z. unfold mat_vec. cbn [rsum]. ring.
  - eexists _, _. split; [reflexivity|]. split; [exact Q|]. split; [reflexivity|]. split; [rewrite map_length, seq_length; reflexivity|]. intros r R0. rewrite nth_seq_map by exact R0.
    symmetry. apply FO. exact R0.
Qed.

(** ** The theorems *)
Lemma fine_terms : forall n t, few n -> kernels_defined d n t -> fine_all n (function_of t).
Proof using Type.
  intros n t [F1 F2] (D1 & D2 & D3). unfold values, gradients in *. change (nat -> R) with vec in *. unfold fine_all, fine_for, small_for. rewrite !points_length', !gradients_length.
  assert (B : forall a, (a < 2 ^ 10)%nat -> (N.of_nat a < 1024)%N) by (intros a A; change (2 ^ 10)%nat with 1024%nat in A; lia).
  repeat split; auto.
  - intros x y i j _ _. eexists. reflexivity.
  - specialize (B _ F1) as B1. specialize (B _ F2). nia.
  - specialize (B _ F1) as B1. specialize (B _ F2). nia.
Qed.
Theorem few_exact : forall terms us n ws s, Forall (fun t => range_ok (tk t) (t1 t)) terms -> few n -> Forall (kernels_defined d n) terms ->
  used d nugget accuracy grad_accuracy l basis (new_operator d rest near fresh (map function_of terms)) (us ++ SetNodes n :: map Call ws) = Ok s ->
  forall w, length w = (size vec d n + l)%nat -> exists s' y, call d nugget l basis s w = Ok (s', inl y) /\ length y = (size vec d n + l)%nat /\
  forall ss r, schedules_ok vec (map (term_rbf d) terms) (size vec d n) ss -> (r < size vec d n + l)%nat ->
  nth r y 0 = direct_operator vec difference d (map (term_rbf d) terms) nugget l ss n (basis n) (fun i => nth i w 0) r.
Proof using REST SEARCH.
  intros terms us n ws s RO F KD E w L.
  assert (RO' : Forall (fun f => range_ok (f_kind f) (f_p1 f)) (map function_of terms)) by (apply Forall_map; exact RO).
  destruct (used_shape _ _ _ _ _ RO' E) as [H N].
  assert (FI : Forall (fine_all n) (map function_of terms)). { apply Forall_map. rewrite Forall_forall in *. intros t T. apply fine_terms; auto. }
  subst n. destruct (call_exact _ s w H FI L) as (s' & y & EC & _ & _ & LY & NY). exists s', y. split; [exact EC|]. split; [exact LY|]. intros ss r SS R0. rewrite (NY r R0).
  apply fast_direct; auto. rewrite map_map. clear. induction terms as [|t ts IH]; cbn [map]; constructor; auto. apply exact_four_ok.
Qed.
Theorem few_calls : forall terms us n ws s, Forall (fun t => range_ok (tk t) (t1 t)) terms -> few n -> Forall (kernels_defined d n) terms ->
  used d nugget accuracy grad_accuracy l basis (new_operator d rest near fresh (map function_of terms)) us = Ok s ->
  Forall (fun w => length w = (size vec d n + l)%nat) ws ->
  exists s', used d nugget accuracy grad_accuracy l basis s (SetNodes n :: map Call ws) = Ok s'.
Proof using REST SEARCH.
  intros terms us n ws s RO F KD E LW. cbn [used].
  assert (RO' : Forall (fun f => range_ok (f_kind f) (f_p1 f)) (map function_of terms)) by (apply Forall_map; exact RO).
  assert (FI : Forall (fine_all n) (map function_of terms)). { apply Forall_map. rewrite Forall_forall in *. intros t T. apply fine_terms; auto. }
  destruct (used_kept _ us false _ _ (new_ok _ RO') E) as (b & H0). pose proof (set_ok _ b s n H0) as H. clear H0 E RO RO'.
  assert (N : os_nodes (set_points accuracy grad_accuracy s n) = n) by reflexivity. revert H N. generalize (set_points accuracy grad_accuracy s n). clear s.
  induction LW as [|w ws L LW IH]; intros s H N; cbn [map used]; [eauto|]. subst n.
  destruct (call_exact _ s w H FI L) as (s' & y & EC & H' & N' & _). rewrite EC. cbn [bind fst]. apply IH; auto.
Qed.
End Operator.

(** ** The problems of C71 *)
Lemma entry_defined : forall d t kk i j v, (kk <> KHessian -> exists g, gradient (tk t) (t0 t) (t1 t) (dot d v v) = Num g) ->
  (kk = KHessian -> exists h, hessian (tk t) (t0 t) (t1 t) (dot d v v) = Num h) ->
  exists r, kernel_entry d (tk t) (t0 t) (t1 t) (ta t) kk i j v = Num r.
Proof.
  intros d t kk i j v G H. destruct kk; cbn [kernel_entry].
  - eauto.
  - destruct (G ltac:(discriminate)) as (g & E). unfold gradient_at. rewrite E. cbn [res_map]. eauto.
  - destruct (G ltac:(discriminate)) as (g & E). unfold gradient_at. rewrite E. cbn [res_map]. eauto.
  - destruct (H eq_refl) as (h & E). unfold hessian_at. rewrite E. cbn [res_map]. eauto.
Qed.
Lemma smooth_gradient : forall t s, definite_order (tk t) <> None -> smooth_term t -> exists g, gradient (tk t) (t0 t) (t1 t) s = Num g.
Proof.
  intros t s O SM. unfold smooth_term in SM. destruct (tk t); cbn in O; try contradiction; cbn [gradient]; unfold even_gradient, odd_gradient, gau_gradient, gc_gradient; cbv zeta;
    try (destruct (is_zero _); eexists; reflexivity); try (eexists; reflexivity).
Qed.
Lemma hessian_from : forall d t x y, (exists h, evaluate_hessian d (tk t) (t0 t) (t1 t) (ta t) (difference x y) = Num h) ->
  exists h, hessian (tk t) (t0 t) (t1 t) (dot d (difference (mat_vec d (ta t) x) (mat_vec d (ta t) y)) (difference (mat_vec d (ta t) x) (mat_vec d (ta t) y))) = Num h.
Proof.
  intros d t x y (h & E).
  replace (difference (mat_vec d (ta t) x) (mat_vec d (ta t) y)) with (mat_vec d (ta t) (difference x y)).
  2: { apply functional_extensionality. intros e. unfold mat_vec, difference. rewrite <- rsum_minus. apply rsum_ext. intros k _. ring. }
  unfold evaluate_hessian, hessian_at in E. destruct (hessian (tk t) (t0 t) (t1 t) (dot d (mat_vec d (ta t) (difference x y)) (mat_vec d (ta t) (difference x y)))); cbn [res_map] in E; try discriminate. eauto.
Qed.
Lemma posed_range : forall d m n terms nugget, posed d m n terms nugget -> Forall (fun t => range_ok (tk t) (t1 t)) terms.
Proof.
  assert (G : forall d m t, good_term d m t -> range_ok (tk t) (t1 t)).
  { intros d m t (k & O & _ & _ & P & _). unfold definite_in in O. destruct (tk t); cbn in O |- *; auto;
      try (destruct d as [|[|[|[|d]]]]; cbn in O); try discriminate; injection O as <-; apply P; reflexivity. }
  intros d m n terms nugget [(_ & F & _)|(F & _)]; rewrite Forall_forall in *; intros t T; specialize (F t T); [eauto|]. destruct F as [F _]. eauto.
Qed.
Lemma posed_defined : forall d m n terms nugget, posed d m n terms nugget -> Forall (kernels_defined d n) terms.
Proof.
  intros d m n terms nugget [(Z & _)|(F & _)]; apply Forall_forall; intros t T.
  - unfold gradients in Z. change (nat -> R) with vec in Z. assert (E : gradient_rows n = []) by (unfold gradient_rows; rewrite Z; reflexivity).
    unfold kernels_defined, defined_between. rewrite E. repeat split; intros x y i j [] || intros x y i j _ [].
  - rewrite Forall_forall in F. destruct (F t T) as ((k & O & _) & SM & HD).
    assert (O' : definite_order (tk t) <> None). { unfold smooth_term in SM. unfold definite_in in O. destruct (tk t); cbn in *; congruence || contradiction. }
    unfold kernels_defined, defined_between. split; [|split]; intros x y i j X Y; apply entry_defined; intros K; try (exfalso; congruence); try discriminate;
      try (apply smooth_gradient; auto).
    apply hessian_from. unfold gradient_rows in X, Y. apply in_map_iff in X, Y. destruct X as (a & <- & A). destruct Y as (b & <- & B). apply in_seq in A, B.
    apply HD; unfold gradients; change (nat -> R) with vec; lia.
Qed.

Section Solved.
Variable d : nat.
Variable nugget : R.
Variable accuracy grad_accuracy : option R.
Variable rest : function -> kernel_kind -> bool -> fenv vec.
Variable near : list vec -> vec -> R -> list nat.
Variable fresh : nat -> list R.
Hypothesis REST : sound_rest rest.
Hypothesis SEARCH : sound_search d near.
Variable degree : option nat.
Let l := basis_size d degree.
Let p := basis d degree.

Theorem few_operator : forall m terms us n ws s, few n -> posed d m n terms nugget ->
  used d nugget accuracy grad_accuracy l p (new_operator d rest near fresh (map function_of terms)) (us ++ SetNodes n :: map Call ws) = Ok s ->
  exact_operator d degree n terms nugget (applied d nugget l p s).
Proof using REST SEARCH.
  intros m terms us n ws s F PO E. pose proof (posed_range _ _ _ _ _ PO) as RO. pose proof (posed_defined _ _ _ _ _ PO) as KD.
  set (ss := map (fun _ : term => ([0%nat], fun _ : nat => 0%nat)) terms). exists ss.
  assert (SS : schedules_ok (nat -> R) (map (term_rbf d) terms) (rows d n) ss).
  { unfold ss. split; [rewrite !map_length; reflexivity|]. apply Forall_forall. intros x X. apply in_map_iff in X. destruct X as (t & <- & _). split; cbn [fst snd].
    - constructor; [intros []|constructor].
    - intros r _. left. reflexivity. }
  split; [exact SS|]. intros w i I0. unfold applied.
  assert (RO' : Forall (fun f => range_ok (f_kind f) (f_p1 f)) (map function_of terms)) by (apply Forall_map; exact RO).
  destruct (used_shape d nugget accuracy grad_accuracy rest near fresh l p REST SEARCH _ _ _ _ _ RO' E) as [_ N]. rewrite N.
  destruct (few_exact d nugget accuracy grad_accuracy rest near fresh l p REST SEARCH terms us n ws s RO F KD E (map w (seq 0 (size vec d n + l)))) as (s' & y & EC & LY & NY);
    [rewrite map_length, seq_length; reflexivity|].
  rewrite EC. fold l in I0. rewrite (NY ss i SS I0). change vec with (nat -> R) in *. unfold rows in I0. fold l. fold p.
  rewrite !direct_entries by auto. unfold mat_vec. apply rsum_ext. intros k K. f_equal. apply nth_seq_map. exact K.
Qed.
End Solved.
