From Coq Require Import List Arith ZArith Bool Reals Lra Lia Permutation.
From Verif Require Import Proofs.PrimitiveLattice.
From Verif Require Import Model.Outcome Model.PrimitiveLattice Model.Commands Spec.Commands.
Import ListNotations.

(** * Concatenation *)
Section Tables.
Context {D : Type}.

Lemma common_rows_spec : forall (ms : list (mat D)) m,
  (common_rows m ms = Ok (rows m) /\ (forall x, In x ms -> rows x = rows m)) \/
  (common_rows m ms = Throw ExInvalidArgument /\ exists x, In x ms /\ rows x <> rows m).
Proof.
  induction ms as [|m' ms IH]; intros m; [left; split; [reflexivity|intros x []]|]. cbn [common_rows].
  destruct (IH m') as [[E A]|[E (x & I & N)]]; rewrite E; cbn [bind].
  - destruct (Nat.eqb_spec (rows m) (rows m')) as [Q|Q].
    + left. split; [reflexivity|]. intros x [<-|I]; [congruence|]. rewrite (A x I). congruence.
    + right. split; [reflexivity|]. exists m'. split; [left; reflexivity|congruence].
  - right. split; [reflexivity|]. destruct (Nat.eq_dec (rows m') (rows m)) as [Q|Q].
    + exists x. split; [right; exact I|congruence].
    + exists m'. split; [left; reflexivity|exact Q].
Qed.
Lemma common_cols_spec : forall (ms : list (mat D)) m,
  (common_cols m ms = Ok (cols m) /\ (forall x, In x ms -> cols x = cols m)) \/
  (common_cols m ms = Throw ExInvalidArgument /\ exists x, In x ms /\ cols x <> cols m).
Proof.
  induction ms as [|m' ms IH]; intros m; [left; split; [reflexivity|intros x []]|]. cbn [common_cols].
  destruct (IH m') as [[E A]|[E (x & I & N)]]; rewrite E; cbn [bind].
  - destruct (Nat.eqb_spec (cols m) (cols m')) as [Q|Q].
    + left. split; [reflexivity|]. intros x [<-|I]; [congruence|]. rewrite (A x I). congruence.
    + right. split; [reflexivity|]. exists m'. split; [left; reflexivity|congruence].
  - right. split; [reflexivity|]. destruct (Nat.eq_dec (cols m') (cols m)) as [Q|Q].
    + exists x. split; [right; exact I|congruence].
    + exists m'. split; [left; reflexivity|exact Q].
Qed.

Lemma cols_impl_spec : forall (ms : list (mat D)) m first width x, width = total cols (m :: ms) ->
  (forall i j, j < first -> cols_impl first width m ms x i j = x i j) /\
  (forall k m' i j, nth_error (m :: ms) k = Some m' -> j < cols m' ->
     cols_impl first width m ms x i (first + (start cols k (m :: ms) + j)) = entry m' i j).
Proof.
  induction ms as [|m2 ms IH]; intros m first width x W.
  - cbn [cols_impl]. unfold put_cols. split.
    + intros i j J. destruct (Nat.leb_spec first j); [lia|]. reflexivity.
    + intros k m' i j N J. destruct k as [|k]; [|destruct k; discriminate]. cbn in N. injection N as <-.
      unfold start. cbn [firstn map list_sum fold_right]. cbn [Nat.add].
      destruct (Nat.leb_spec first (first + j)); [|lia]. destruct (Nat.ltb_spec (first + j) (first + cols m)); [|lia]. cbn [andb].
      f_equal. lia.
  - cbn [cols_impl]. assert (width = cols m + total cols (m2 :: ms)) as W2 by exact W.
    replace (width - (width - cols m)) with (cols m) by lia.
    destruct (IH m2 (first + cols m) (width - cols m) (put_cols first m x)) as [A B]; [lia|]. split.
    + intros i j J. rewrite A by lia. unfold put_cols. destruct (Nat.leb_spec first j); [lia|]. reflexivity.
    + intros k m' i j N J. destruct k as [|k].
      * cbn in N. injection N as <-. unfold start. cbn [firstn map list_sum fold_right Nat.add]. rewrite A by lia. unfold put_cols.
        destruct (Nat.leb_spec first (first + j)); [|lia]. destruct (Nat.ltb_spec (first + j) (first + cols m)); [|lia]. cbn [andb]. f_equal. lia.
      * cbn [nth_error] in N. specialize (B k m' i j N J). unfold start in *. cbn [firstn map] in *. cbn [list_sum fold_right] in *.
        rewrite <- B. f_equal. unfold list_sum. lia.
Qed.
Lemma rows_impl_spec : forall (ms : list (mat D)) m first height x, height = total rows (m :: ms) ->
  (forall i j, i < first -> rows_impl first height m ms x i j = x i j) /\
  (forall k m' i j, nth_error (m :: ms) k = Some m' -> i < rows m' ->
     rows_impl first height m ms x (first + (start rows k (m :: ms) + i)) j = entry m' i j).
Proof.
  induction ms as [|m2 ms IH]; intros m first height x W.
  - cbn [rows_impl]. unfold put_rows. split.
    + intros i j J. destruct (Nat.leb_spec first i); [lia|]. reflexivity.
    + intros k m' i j N J. destruct k as [|k]; [|destruct k; discriminate]. cbn in N. injection N as <-.
      unfold start. cbn [firstn map list_sum fold_right]. cbn [Nat.add].
      destruct (Nat.leb_spec first (first + i)); [|lia]. destruct (Nat.ltb_spec (first + i) (first + rows m)); [|lia]. cbn [andb].
      f_equal. lia.
  - cbn [rows_impl]. assert (height = rows m + total rows (m2 :: ms)) as W2 by exact W.
    replace (height - (height - rows m)) with (rows m) by lia.
    destruct (IH m2 (first + rows m) (height - rows m) (put_rows first m x)) as [A B]; [lia|]. split.
    + intros i j J. rewrite A by lia. unfold put_rows. destruct (Nat.leb_spec first i); [lia|]. reflexivity.
    + intros k m' i j N J. destruct k as [|k].
      * cbn in N. injection N as <-. unfold start. cbn [firstn map list_sum fold_right Nat.add]. rewrite A by lia. unfold put_rows.
        destruct (Nat.leb_spec first (first + i)); [|lia]. destruct (Nat.ltb_spec (first + i) (first + rows m)); [|lia]. cbn [andb]. f_equal. lia.
      * cbn [nth_error] in N. specialize (B k m' i j N J). unfold start in *. cbn [firstn map] in *. cbn [list_sum fold_right] in *.
        rewrite <- B. f_equal. unfold list_sum. lia.
Qed.

Lemma concatenate_cols_spec : forall junk (m : mat D) ms,
  (exists r, concatenate_cols junk m ms = Ok r /\ side_by_side (m :: ms) r) \/
  (concatenate_cols junk m ms = Throw ExInvalidArgument /\ exists x, In x ms /\ rows x <> rows m).
Proof.
  intros junk m ms. unfold concatenate_cols. destruct (common_rows_spec ms m) as [[E A]|[E X]]; rewrite E; cbn [bind]; [|auto].
  left. eexists. split; [reflexivity|]. split; [|split; [reflexivity|]]; cbn [rows cols entry].
  - intros x [<-|I]; auto.
  - intros k m' i j N _ J. destruct (cols_impl_spec ms m 0 (total cols (m :: ms)) junk eq_refl) as [_ B]. apply (B k m' i j N J).
Qed.
Lemma concatenate_rows_spec : forall junk (m : mat D) ms,
  (exists r, concatenate_rows junk m ms = Ok r /\ stacked (m :: ms) r) \/
  (concatenate_rows junk m ms = Throw ExInvalidArgument /\ exists x, In x ms /\ cols x <> cols m).
Proof.
  intros junk m ms. unfold concatenate_rows. destruct (common_cols_spec ms m) as [[E A]|[E X]]; rewrite E; cbn [bind]; [|auto].
  left. eexists. split; [reflexivity|]. split; [|split; [reflexivity|]]; cbn [rows cols entry].
  - intros x [<-|I]; auto.
  - intros k m' i j N J _. destruct (rows_impl_spec ms m 0 (total rows (m :: ms)) junk eq_refl) as [_ B]. apply (B k m' i j N J).
Qed.

(** * Fit and evaluate *)
Lemma columns_ok : forall first n (t : mat D), first + n <= cols t ->
  columns first n t = Ok (Mat (rows t) n (fun i j => entry t i (first + j))).
Proof. intros first n t H. unfold columns. rewrite (proj2 (Nat.leb_le _ _) H). reflexivity. Qed.
Lemma columns_bad : forall first n (t : mat D), cols t < first + n -> columns first n t = UB.
Proof. intros first n t H. unfold columns. rewrite (proj2 (Nat.leb_gt _ _) H). reflexivity. Qed.

Lemma read_fit_spec : forall junk dim (ineq : bool) (table : mat D) (grad_table : option (mat D)), 0 < dim ->
  dim + (if ineq then 3 else 1) <= cols table -> (forall g, grad_table = Some g -> 2 * dim <= cols g) ->
  exists d, read_fit junk dim ineq table grad_table = Ok d /\
    (rows (fit_points d) = rows table /\ cols (fit_points d) = dim /\ forall i j, entry (fit_points d) i j = entry table i j) /\
    (rows (fit_values d) = rows table /\ cols (fit_values d) = 1 /\ forall i, entry (fit_values d) i 0 = entry table i dim) /\
    match fit_bounds d with
    | None => ineq = false
    | Some (lb, ub) => ineq = true /\ rows lb = rows table /\ rows ub = rows table /\
        forall i, entry lb i 0 = entry table i (dim + 1) /\ entry ub i 0 = entry table i (dim + 2)
    end /\
    match grad_table with
    | None => rows (fit_grad_points d) = 0 /\ rows (fit_rhs d) = rows table
    | Some g => rows (fit_grad_points d) = rows g /\ (forall i j, entry (fit_grad_points d) i j = entry g i j) /\
        rows (fit_rhs d) = rows table + dim * rows g /\
        forall i j, j < dim -> entry (fit_rhs d) (rows table + (dim * i + j)) 0 = entry g i (dim + j)
    end /\
    forall i, i < rows table -> entry (fit_rhs d) i 0 = entry table i dim.
Proof.
  intros junk dim ineq table gt Dp C G. unfold read_fit. rewrite columns_ok by (destruct ineq; lia). cbn [bind].
  rewrite columns_ok by (destruct ineq; lia). cbn [bind].
  match goal with |- context [bind (if ineq then ?a else ?b)] => set (bo := if ineq then a else b) end.
  assert (exists bs, bo = Ok bs /\
    match bs with
    | None => ineq = false
    | Some (lb, ub) => ineq = true /\ rows lb = rows table /\ rows ub = rows table /\
        forall i, entry lb i 0 = entry table i (dim + 1) /\ entry ub i 0 = entry table i (dim + 2)
    end) as (bs & -> & B).
  { unfold bo. destruct ineq; [|exists None; auto]. rewrite columns_ok by lia. cbn [bind]. rewrite columns_ok by lia. cbn [bind].
    eexists. split; [reflexivity|]. cbn. split; [reflexivity|]. split; [reflexivity|]. split; [reflexivity|]. intros i. rewrite !Nat.add_0_r. auto. }
  cbn [bind]. destruct gt as [g|].
  - pose proof (G g eq_refl) as Gc. rewrite columns_ok by lia. cbn [bind]. rewrite columns_ok by lia. cbn [bind fst snd rows cols entry to_vector].
    eexists. split; [reflexivity|]. cbn [fit_points fit_values fit_bounds fit_grad_points fit_rhs rows cols entry].
    split; [auto|]. split. { split; [reflexivity|]. split; [reflexivity|]. intros i. rewrite Nat.add_0_r. reflexivity. }
    split; [exact B|]. split.
    + split; [reflexivity|]. split; [reflexivity|]. split; [lia|]. intros i j J.
      destruct (Nat.ltb_spec (rows table + (dim * i + j)) (rows table)); [lia|].
      replace (rows table + (dim * i + j) - rows table) with (j + i * dim) by lia.
      rewrite Nat.div_add by lia. rewrite Nat.mod_add by lia. rewrite Nat.div_small, Nat.mod_small by lia. reflexivity.
    + intros i I. rewrite (proj2 (Nat.ltb_lt _ _) I), Nat.add_0_r. reflexivity.
  - cbn [bind fst snd rows cols entry to_vector no_rows].
    eexists. split; [reflexivity|]. cbn [fit_points fit_values fit_bounds fit_grad_points fit_rhs rows cols entry].
    split; [auto|]. split. { split; [reflexivity|]. split; [reflexivity|]. intros i. rewrite Nat.add_0_r. reflexivity. }
    split; [exact B|]. split; [split; [reflexivity|cbn; lia]|].
    intros i I. rewrite (proj2 (Nat.ltb_lt _ _) I), Nat.add_0_r. reflexivity.
Qed.
Lemma read_fit_bad : forall junk dim (ineq : bool) (table : mat D) (grad_table : option (mat D)),
  cols table < dim + (if ineq then 3 else 1) \/ (exists g, grad_table = Some g /\ cols g < 2 * dim) ->
  read_fit junk dim ineq table grad_table = UB.
Proof.
  intros junk dim ineq table gt H. unfold read_fit, columns.
  destruct (Nat.leb_spec (0 + dim) (cols table)); cbn [bind]; [|reflexivity].
  destruct (Nat.leb_spec (dim + 1) (cols table)); cbn [bind]; [|reflexivity].
  assert (forall f : option (mat D * mat D) -> outcome (fit_data D), cols table < dim + (if ineq then 3 else 1) ->
    bind (if ineq then let* lb := (if dim + 1 + 1 <=? cols table then Ok (Mat (rows table) 1 (fun i j => entry table i (dim + 1 + j))) else UB) in
      let* ub := (if dim + 2 + 1 <=? cols table then Ok (Mat (rows table) 1 (fun i j => entry table i (dim + 2 + j))) else UB) in Ok (Some (lb, ub)) else Ok None) f = UB) as Q.
  { intros f Hc. destruct ineq; [|lia]. destruct (Nat.leb_spec (dim + 1 + 1) (cols table)); cbn [bind]; [|reflexivity].
    destruct (Nat.leb_spec (dim + 2 + 1) (cols table)); [lia|reflexivity]. }
  destruct H as [H|(g & -> & H)]; [apply Q, H|]. clear Q.
  match goal with |- bind ?x _ = _ => destruct x as [bs|e|] eqn:E end; cbn [bind].
  - destruct (Nat.leb_spec (0 + dim) (cols g)); cbn [bind]; [|reflexivity]. destruct (Nat.leb_spec (dim + dim) (cols g)); [lia|reflexivity].
  - exfalso. destruct ineq; [|discriminate]. destruct (_ <=? _); cbn [bind] in E; [|discriminate]. destruct (_ <=? _); discriminate.
  - reflexivity.
Qed.

Lemma evaluate_spec : forall junk (eval : mat D -> mat D -> mat D) dim (table : mat D), dim <= cols table ->
  let points := Mat (rows table) dim (fun i j => entry table i j) in
  let values := eval points points in
  cols values = 1 -> rows values = rows table + dim * rows table ->
  exists r, evaluate_table junk eval dim true table = Ok r /\ rows r = rows table /\ cols r = dim + 1 + dim /\
    forall i, i < rows table ->
      (forall j, j < dim -> entry r i j = entry table i j) /\ entry r i dim = entry values i 0 /\
      (forall j, j < dim -> entry r i (dim + 1 + j) = entry values (rows table + (dim * i + j)) 0).
Proof.
  intros junk eval dim table C points values C1 R1. unfold evaluate_table. rewrite columns_ok by lia. cbn [bind Nat.add].
  fold points. fold values. change (rows points) with (rows table).
  unfold head, tail, to_matrix. rewrite (proj2 (Nat.leb_le _ _)) by lia. cbn [bind]. rewrite (proj2 (Nat.leb_le _ _)) by lia. cbn [bind rows].
  rewrite (proj2 (Nat.eqb_eq _ _)) by lia. cbn [bind].
  match goal with |- context [concatenate_cols junk points [?a; ?b]] => set (v := a); set (g := b) end.
  destruct (concatenate_cols_spec junk points [v; g]) as [(r & E & S1 & S2 & S3)|(E & x & I & N)].
  - exists r. split; [exact E|]. split; [symmetry; apply (S1 points); left; reflexivity|]. split; [rewrite S2; cbn; lia|]. intros i Ii.
    split; [|split].
    + intros j J. specialize (S3 0 points i j eq_refl Ii J). exact S3.
    + specialize (S3 1 v i 0 eq_refl Ii). cbn in S3. rewrite !Nat.add_0_r in S3. rewrite S3 by lia. reflexivity.
    + intros j J. specialize (S3 2 g i j eq_refl Ii J). cbn [start firstn map list_sum fold_right] in S3. unfold start in S3. cbn in S3.
      replace (dim + 1 + j) with (dim + 1 + 0 + j) by lia. rewrite <- (Nat.add_assoc dim 1 0). cbn [Nat.add].
      replace (dim + (1 + 0)) with (dim + 1) in * by lia. rewrite S3. f_equal. rewrite R1. lia.
  - exfalso. apply N. destruct I as [<-|[<-|[]]]; reflexivity.
Qed.
Lemma evaluate_values_spec : forall junk (eval : mat D -> mat D -> mat D) dim (table : mat D), dim <= cols table ->
  let points := Mat (rows table) dim (fun i j => entry table i j) in
  let values := eval points (no_rows dim junk) in
  cols values = 1 -> rows values = rows table ->
  exists r, evaluate_table junk eval dim false table = Ok r /\ rows r = rows table /\ cols r = dim + 1 /\
    forall i, i < rows table -> (forall j, j < dim -> entry r i j = entry table i j) /\ entry r i dim = entry values i 0.
Proof.
  intros junk eval dim table C points values C1 R1. unfold evaluate_table. rewrite columns_ok by lia. cbn [bind Nat.add].
  fold points. fold values.
  destruct (concatenate_cols_spec junk points [values]) as [(r & E & S1 & S2 & S3)|(E & x & I & N)].
  - exists r. split; [exact E|]. split; [symmetry; apply (S1 points); left; reflexivity|].
    split; [rewrite S2; cbn [map list_sum fold_right]; rewrite C1; cbn; lia|]. intros i Ii. split.
    + intros j J. exact (S3 0 points i j eq_refl Ii J).
    + specialize (S3 1 values i 0 eq_refl). cbn in S3. rewrite !Nat.add_0_r in S3. apply S3; lia.
  - exfalso. apply N. destruct I as [<-|[]]. exact R1.
Qed.

(** An interpolant that meets its right hand side gives back the table of the values and gradients. *)
Lemma round_trip : forall junk (eval : mat D -> mat D -> mat D) dim (table grads : mat D) d r,
  0 < dim -> dim + 1 <= cols table -> 2 * dim <= cols grads -> rows grads = rows table ->
  (forall i j, entry grads i j = entry table i j \/ dim <= j) ->
  read_fit junk dim false table (Some grads) = Ok d ->
  (forall p, rows p = rows table -> cols p = dim -> (forall i j, j < dim -> entry p i j = entry table i j) -> eval p p = fit_rhs d) ->
  evaluate_table junk eval dim true table = Ok r ->
  forall i, i < rows table -> entry r i dim = entry table i dim /\ forall j, j < dim -> entry r i (dim + 1 + j) = entry grads i (dim + j).
Proof.
  intros junk eval dim table grads d r Dp C G R Same F E V i I.
  destruct (read_fit_spec junk dim false table (Some grads) Dp C) as (d' & F' & _ & _ & _ & (_ & _ & RR & Gr) & Vl).
  { intros g Hg. injection Hg as <-. exact G. }
  rewrite F in F'. injection F' as <-.
  assert (fit_rhs d = Mat (rows (fit_rhs d)) 1 (entry (fit_rhs d))) as C1.
  { unfold read_fit in F. rewrite !columns_ok in F by lia. cbn [bind] in F. injection F as <-. reflexivity. }
  destruct (evaluate_spec junk eval dim table ltac:(lia)) as (r' & V' & _ & _ & H).
  { rewrite E by (auto). rewrite C1. reflexivity. }
  { rewrite E by (auto). rewrite RR, R. reflexivity. }
  rewrite V in V'. injection V' as <-. destruct (H i I) as (_ & A & B).
  split; [rewrite A, E by auto; apply Vl, I|]. intros j J. rewrite B by exact J. rewrite E by auto. rewrite Gr by exact J. reflexivity.
Qed.

(** * Normals *)
Variable times_zero : D -> D.
Lemma keep_range : forall ratio n, (0 <= ratio <= 1)%R -> (0 <= normals_to_keep ratio n <= Z.of_nat n)%Z.
Proof.
  intros ratio n H. unfold normals_to_keep. pose proof (round_near (ratio * INR n)) as N. pose proof (pos_INR n) as P.
  assert (0 <= ratio * INR n <= INR n)%R as Q by nra. rewrite (INR_IZR_INZ n) in *. set (z := round _) in *.
  assert (- (1 / 2) <= IZR z - ratio * IZR (Z.of_nat n) <= 1 / 2)%R as B by (apply Rabs_def3 || (unfold Rabs in N; destruct (Rcase_abs _); lra)).
  split.
  - assert (-1 < z)%Z by (apply lt_IZR; lra). lia.
  - assert (z < Z.of_nat n + 1)%Z by (apply lt_IZR; rewrite plus_IZR; lra). lia.
Qed.

Lemma drop_normals_spec : forall ratio shuffled (normals : mat D), (0 <= ratio <= 1)%R -> Permutation shuffled (seq 0 (rows normals)) ->
  exists r kept, drop_normals times_zero ratio shuffled normals = Ok r /\ rows r = rows normals /\ cols r = cols normals /\
    NoDup kept /\ Z.of_nat (length kept) = normals_to_keep ratio (rows normals) /\ (forall i, In i kept -> i < rows normals) /\
    forall i j, i < rows normals -> (In i kept -> entry r i j = entry normals i j) /\ (~ In i kept -> entry r i j = times_zero (entry normals i j)).
Proof.
  intros ratio shuffled normals H P. pose proof (keep_range ratio (rows normals) H) as K. unfold drop_normals.
  destruct (Z.ltb_spec (Z.of_nat (rows normals) - normals_to_keep ratio (rows normals)) 0); [lia|].
  set (k := Z.to_nat _). pose proof (Permutation_length P) as L. rewrite seq_length in L.
  assert (NoDup shuffled) as ND by (apply (Permutation_NoDup (Permutation_sym P)), seq_NoDup).
  replace (k - length shuffled) with 0 by lia. cbn [repeat]. rewrite app_nil_r.
  assert (forall i, In i (skipn k shuffled) -> ~ In i (firstn k shuffled)) as Disj.
  { rewrite <- (firstn_skipn k shuffled) in ND. clear - ND. induction (firstn k shuffled) as [|a l IH]; [auto|].
    intros i Hi [->|Hl]; cbn in ND; inversion ND; subst; [apply H1, in_or_app; auto|exact (IH H2 i Hi Hl)]. }
  eexists _, (skipn k shuffled). split; [reflexivity|]. cbn [rows cols entry]. split; [reflexivity|]. split; [reflexivity|].
  split. { rewrite <- (firstn_skipn k shuffled) in ND. clear - ND. induction (firstn k shuffled); [exact ND|]. inversion ND; auto. }
  split; [rewrite skipn_length; unfold k; lia|]. split.
  - intros i I. assert (In i shuffled) as I' by (rewrite <- (firstn_skipn k shuffled); apply in_or_app; auto).
    apply (Permutation_in _ P) in I'. apply in_seq in I'. lia.
  - intros i j I. assert (In i (seq 0 (rows normals))) as I' by (apply in_seq; lia). apply (Permutation_in _ (Permutation_sym P)) in I'.
    rewrite <- (firstn_skipn k shuffled) in I'. apply in_app_or in I'.
    destruct (existsb (Nat.eqb i) (firstn k shuffled)) eqn:E.
    + apply existsb_exists in E. destruct E as (x & Ix & Q). apply Nat.eqb_eq in Q. subst x. split; [|reflexivity].
      intros Hk. exfalso. exact (Disj i Hk Ix).
    + split; [reflexivity|]. intros Hk. exfalso. destruct I' as [I'|I']; [|contradiction].
      assert (existsb (Nat.eqb i) (firstn k shuffled) = true) by (apply existsb_exists; exists i; split; [exact I'|apply Nat.eqb_refl]). congruence.
Qed.
Lemma drop_normals_above : forall ratio shuffled (normals : mat D), (Z.of_nat (rows normals) < normals_to_keep ratio (rows normals))%Z ->
  drop_normals times_zero ratio shuffled normals = Throw ExLengthError.
Proof. intros ratio shuffled normals H. unfold drop_normals. rewrite (proj2 (Z.ltb_lt _ _)) by lia. reflexivity. Qed.
Lemma drop_normals_below : forall ratio shuffled (normals : mat D), (normals_to_keep ratio (rows normals) <= 0)%Z ->
  Permutation shuffled (seq 0 (rows normals)) ->
  exists r, drop_normals times_zero ratio shuffled normals = Ok r /\ forall i j, i < rows normals -> entry r i j = times_zero (entry normals i j).
Proof.
  intros ratio shuffled normals H P. unfold drop_normals. rewrite (proj2 (Z.ltb_ge _ _)) by lia. eexists. split; [reflexivity|].
  intros i j I. cbn [entry]. pose proof (Permutation_length P) as L. rewrite seq_length in L.
  rewrite (proj2 (existsb_exists _ _)); [reflexivity|]. exists i. split; [|apply Nat.eqb_refl]. apply in_or_app. left.
  rewrite firstn_all2 by lia. apply (Permutation_in _ (Permutation_sym P)), in_seq. lia.
Qed.
End Tables.

(** * Fit options *)
Lemma choose_fit_spec : forall dim grad_in initial ineq reduce,
  choose_fit dim grad_in initial ineq reduce =
  if (grad_in && ineq) || (initial && reduce) || negb ((1 <=? dim)%Z && (dim <=? 3)%Z) then Throw ExRuntimeError
  else Ok (if ineq then FitInequality initial else if reduce then FitIncrementally else Fit initial).
Proof.
  intros dim grad_in initial ineq reduce. unfold choose_fit. destruct (grad_in && ineq); [reflexivity|]. destruct (initial && reduce); [reflexivity|].
  cbn [orb]. destruct (Z.eqb_spec dim 1) as [->|]; [reflexivity|]. destruct (Z.eqb_spec dim 2) as [->|]; [reflexivity|].
  destruct (Z.eqb_spec dim 3) as [->|]; [reflexivity|]. cbn [orb].
  destruct (Z.leb_spec 1 dim); cbn [andb negb]; [|reflexivity]. destruct (Z.leb_spec dim 3); cbn [andb negb]; [lia|reflexivity].
Qed.

(** * The best trial *)
Local Open Scope R_scope.
Definition is_finite (c : cost) : Prop := exists x, c = Finite x.
Lemma best_fold : forall {M : Type} (trials : list (cost * M)) m0 c0,
  let r := fold_left (fun best t => if cost_lt (fst t) (snd best) then (snd t, fst t) else best) trials (m0, c0) in
  (c0 = Infinite \/ is_finite c0) ->
  (r = (m0, c0) /\ forall c m x, In (c, m) trials -> c = Finite x -> exists y, c0 = Finite y /\ y <= x) \/
  (exists pre x m post, trials = pre ++ (Finite x, m) :: post /\ r = (m, Finite x) /\
     (forall y, c0 = Finite y -> x < y) /\
     (forall y m', In (Finite y, m') pre -> x < y) /\ (forall y m', In (Finite y, m') post -> x <= y)).
Proof.
  intros M. induction trials as [|[c m] trials IH]; intros m0 c0 r H0.
  - left. split; [reflexivity|]. intros c m x [].
  - subst r. cbn [fold_left fst snd]. destruct (cost_lt c c0) eqn:L.
    + destruct c as [x| |]; try discriminate.
      destruct (IH m (Finite x) (or_intror (ex_intro _ x eq_refl))) as [[E A]|(pre & y & m' & post & E & R & Lt & Pre & Post)].
      * right. exists [], x, m, trials. split; [reflexivity|]. split; [exact E|]. split; [|split].
        -- intros y Hy. subst c0. cbn in L. destruct (Rlt_dec x y); [assumption|discriminate].
        -- intros y m' [].
        -- intros y m' I. destruct (A (Finite y) m' y I eq_refl) as (z & Hz & Le). injection Hz as <-. exact Le.
      * right. exists ((Finite x, m) :: pre), y, m', post. split; [cbn; congruence|]. split; [exact R|].
        assert (y < x) as Yx by (apply Lt; reflexivity). split; [|split; [|exact Post]].
        -- intros z Hz. subst c0. cbn in L. destruct (Rlt_dec x z); [lra|discriminate].
        -- intros z m'' [I|I]; [injection I as <- _; exact Yx|apply (Pre z m'' I)].
    + assert (forall x, c = Finite x -> exists y, c0 = Finite y /\ y <= x) as Hd.
      { intros x ->. destruct H0 as [->|[y ->]]; [discriminate|]. cbn in L. destruct (Rlt_dec x y); [discriminate|]. exists y. split; [reflexivity|lra]. }
      destruct (IH m0 c0 H0) as [[E A]|(pre & y & m' & post & E & R & Lt & Pre & Post)].
      * left. split; [exact E|]. intros c' m' x [I|I] Hx; [injection I as -> _; apply Hd, Hx|apply (A c' m' x I Hx)].
      * right. exists ((c, m) :: pre), y, m', post. split; [cbn; congruence|]. split; [exact R|]. split; [exact Lt|]. split; [|exact Post].
        intros z m'' [I|I]; [|apply (Pre z m'' I)]. injection I as -> _. destruct (Hd z eq_refl) as (w & Hw & Le). specialize (Lt w Hw). lra.
Qed.
Lemma cost_lt_spec : forall a b, cost_lt a b = true <-> exists x, a = Finite x /\ (b = Infinite \/ exists y, b = Finite y /\ (x < y)%R).
Proof.
  intros a b. split.
  - destruct a as [x| |], b as [y| |]; cbn [cost_lt]; intros H; try discriminate H; exists x; split; auto.
    right. exists y. destruct (Rlt_dec x y); [auto|discriminate].
  - intros [x [-> [->|[y [-> H]]]]]; cbn [cost_lt]; [reflexivity|]. destruct (Rlt_dec x y); [reflexivity|contradiction].
Qed.
Lemma best_trial_spec : forall {M : Type} (model : M) trials,
  (best_trial model trials = model /\ forall x m, ~ In (Finite x, m) trials) \/
  (exists pre x m post, trials = pre ++ (Finite x, m) :: post /\ best_trial model trials = m /\
     (forall y m', In (Finite y, m') pre -> x < y) /\ (forall y m', In (Finite y, m') post -> x <= y)).
Proof.
  intros M model trials. unfold best_trial. destruct (best_fold trials model Infinite (or_introl eq_refl)) as [[E A]|(pre & x & m & post & E & R & _ & Pre & Post)].
  - left. rewrite E. split; [reflexivity|]. intros x m I. destruct (A _ m x I eq_refl) as (y & Hy & _). discriminate.
  - right. exists pre, x, m, post. rewrite R. auto.
Qed.

(** * Directions *)
Lemma deg_pos : 0 < deg.
Proof. unfold deg. pose proof PI_RGT_0. lra. Qed.
Lemma listed_spec : forall asin_ atan2_ x y z, is_asin asin_ -> is_atan2 atan2_ -> x * x + y * y + z * z = 1 ->
  exists az elev, listed_direction asin_ atan2_ [x; y; z] = Ok (az, elev) /\ 0 <= elev <= 90 /\ 0 <= az <= 360 /\
    (of_angles az elev = (x, y, z) \/ of_angles az elev = (- x, - y, - z)).
Proof.
  intros asin_ atan2_ x y z As At U. pose proof deg_pos as Dp. pose proof PI_RGT_0 as Pp.
  assert (-1 <= z <= 1) as Z by nra. destruct (As z Z) as (Er & Es). destruct (At x y) as (Ar & Ax & Ay).
  set (e := asin_ z) in *. set (a := atan2_ x y) in *. set (s := sqrt (y * y + x * x)) in *.
  assert (cos e = s) as Ec.
  { assert (0 <= cos e) by (apply cos_ge_0; lra). unfold s. symmetry. apply sqrt_lem_1; [nra|assumption|].
    pose proof (sin2_cos2 e) as SC. unfold Rsqr in SC. rewrite Es in SC. lra. }
  assert (PI = 180 * deg) as Pd by (unfold deg; field).
  unfold listed_direction. fold e a.
  assert (forall t, t / deg * deg = t) as Cancel by (intros t; field; lra).
  assert (forall t u, t * deg <= u * deg -> t <= u) as Mono by (intros t u H; apply (Rmult_le_reg_r deg); assumption).
  assert (- (90) <= e / deg <= 90) as Eb by (split; apply Mono; rewrite Cancel; lra).
  assert (- (180) < a / deg <= 180) as Ab.
  { split; [|apply Mono; rewrite Cancel; lra]. apply (Rmult_lt_reg_r deg); [exact Dp|]. rewrite Cancel. lra. }
  assert (forall t, sin (t + 360 * deg) = sin t /\ cos (t + 360 * deg) = cos t) as Per.
  { intros t. replace (t + 360 * deg) with (t + 2 * PI) by lra. split; [pose proof (sin_period t 1) as Q|pose proof (cos_period t 1) as Q];
      cbn [INR] in Q; replace (2 * 1 * PI) with (2 * PI) in Q by ring; exact Q. }
  destruct (Rlt_dec (e / deg) 0) as [N|N].
  - destruct (Rlt_dec (a / deg + 180) 0) as [N2|N2]; [lra|].
    exists (a / deg + 180), (- (e / deg)). split; [reflexivity|]. split; [lra|]. split; [lra|]. right. unfold of_angles.
    replace ((a / deg + 180) * deg) with (a + PI) by (rewrite Rmult_plus_distr_r, Cancel; lra).
    replace (- (e / deg) * deg) with (- e) by (rewrite <- (Cancel e) at 1; ring).
    rewrite neg_sin, neg_cos, cos_neg, sin_neg, Ec, Es. apply f_equal2; [apply f_equal2|]; lra.
  - destruct (Rlt_dec (a / deg) 0) as [N2|N2].
    + exists (a / deg + 360), (e / deg). split; [reflexivity|]. split; [lra|]. split; [lra|]. left. unfold of_angles.
      replace ((a / deg + 360) * deg) with (a + 360 * deg) by (rewrite Rmult_plus_distr_r, Cancel; lra). destruct (Per a) as [-> ->].
      rewrite Cancel, Ec, Es. apply f_equal2; [apply f_equal2|]; lra.
    + exists (a / deg), (e / deg). split; [reflexivity|]. split; [lra|]. split; [lra|]. left. unfold of_angles. rewrite !Cancel, Ec, Es.
      apply f_equal2; [apply f_equal2|]; lra.
Qed.
Lemma listed_undefined : forall asin_ atan2_ dir, length dir <> 3%nat -> listed_direction asin_ atan2_ dir = UB.
Proof. intros asin_ atan2_ [|a [|b [|c [|d dir]]]] H; try reflexivity. cbn in H. contradiction. Qed.

Lemma sin_zero_pi : forall a, - PI < a <= PI -> sin a = 0 -> cos a = -1 -> a = PI.
Proof.
  intros a R S C. destruct (Rtotal_order a 0) as [N|[N|N]].
  - assert (sin a < 0) by (apply sin_lt_0_var; lra). lra.
  - subst a. rewrite cos_0 in C. lra.
  - destruct (Req_dec a PI) as [Q|Q]; [exact Q|]. assert (0 < sin a) by (apply sin_gt_0; lra). lra.
Qed.
Lemma listed_360 : forall asin_ atan2_, is_asin asin_ -> is_atan2 atan2_ ->
  exists elev, listed_direction asin_ atan2_ [0; - (4 / 5); - (3 / 5)] = Ok (360, elev).
Proof.
  intros asin_ atan2_ As At. destruct (As (- (3 / 5)) ltac:(lra)) as (Er & Es). destruct (At 0 (- (4 / 5))) as (Ar & Ax & Ay).
  assert (sqrt (- (4 / 5) * - (4 / 5) + 0 * 0) = 4 / 5) as Sq by (apply sqrt_lem_1; lra). rewrite Sq in Ax, Ay.
  pose proof (sin_zero_pi (atan2_ 0 (- (4 / 5))) Ar ltac:(lra) ltac:(lra)) as A.
  assert (asin_ (- (3 / 5)) < 0) as Neg.
  { destruct (Rlt_dec (asin_ (- (3 / 5))) 0) as [L|L]; [exact L|]. assert (0 <= sin (asin_ (- (3 / 5)))) by (apply sin_ge_0; pose proof PI_RGT_0; lra). lra. }
  unfold listed_direction. pose proof deg_pos as Dp. rewrite A.
  assert (PI / deg = 180) as Pd by (unfold deg; field; pose proof PI_RGT_0; lra). rewrite Pd.
  destruct (Rlt_dec (asin_ (- (3 / 5)) / deg) 0) as [L|L].
  - destruct (Rlt_dec (180 + 180) 0); [lra|]. eexists. f_equal. f_equal. lra.
  - exfalso. apply L. apply (Rmult_lt_reg_r deg); [exact Dp|]. unfold Rdiv. rewrite Rmult_assoc, Rinv_l by lra. lra.
Qed.
