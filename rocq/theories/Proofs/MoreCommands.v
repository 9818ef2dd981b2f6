From Coq Require Import List Arith ZArith Bool Reals Lia Lra Ascii.
From Verif Require Import Proofs.Table Proofs.CrossValidate Proofs.DistanceFilter Proofs.Directions Proofs.Commands.
From Verif Require Import Model.Outcome Model.LinAlg Model.Table Model.Bbox Model.Variogram Model.Directions Model.DistanceFilter Model.CrossValidate
  Model.Commands Model.MoreCommands Spec.DistanceFilter Spec.CrossValidate Spec.Directions Spec.Commands Spec.MoreCommands.
Import ListNotations.
Local Open Scope nat_scope.

Lemma nth_error_seq_map : forall {A : Type} (f : nat -> A) n i, i < n -> nth_error (map f (seq 0 n)) i = Some (f i).
Proof.
  intros A f n i I. rewrite nth_error_map. rewrite (nth_error_nth' _ 0) by (rewrite seq_length; exact I). rewrite seq_nth by exact I. reflexivity.
Qed.
Lemma nth_error_seq_map_inv : forall {A : Type} (f : nat -> A) n i x, nth_error (map f (seq 0 n)) i = Some x -> i < n /\ x = f i.
Proof.
  intros A f n i x H. assert (i < n) as I. { pose proof (proj1 (nth_error_Some (map f (seq 0 n)) i)) as L. rewrite map_length, seq_length in L. apply L. congruence. }
  split; [exact I|]. rewrite nth_error_seq_map in H by exact I. congruence.
Qed.

(** ** Dimensions *)
Theorem dimensions : forall {A : Type} (run : nat -> outcome A) dim,
  (forall d, (1 <= d <= 3) -> dim = Z.of_nat d -> with_dimension run dim = run d) /\
  (~ (1 <= dim <= 3)%Z -> with_dimension run dim = Throw ExRuntimeError).
Proof.
  intros A run dim. unfold with_dimension. split.
  - intros d D ->. destruct d as [|[|[|[|d]]]]; [lia|reflexivity|reflexivity|reflexivity|lia].
  - intros H. destruct (Z.eqb_spec dim 1); [lia|]. destruct (Z.eqb_spec dim 2); [lia|]. destruct (Z.eqb_spec dim 3); [lia|]. reflexivity.
Qed.

(** ** unique *)
Section Unique.
Context {D L : Type}.
Variable valid : L -> bool.
Variable search : list (list D) -> list D -> L -> list nat.
Variable near : L -> list D -> list D -> Prop.
Hypothesis SO : search_ok near search.
Hypothesis SY : forall d p q, near d p q -> near d q p.

Definition kept_rows (table : mat D) : list (nat -> D) := map (entry table) (seq 0 (rows table)).
Lemma unique_run : forall d (table : mat D) dim, dim <= cols table -> valid d = true -> exists s kept,
  filter_all valid search (init (points_of dim table)) d = Ok (Ok tt, s) /\ apply s (kept_rows table) = Ok kept /\
  unique valid search d table dim = Ok (Mat (length kept) (cols table) (fun i => nth i kept (entry table 0))).
Proof using SO SY.
  intros d table dim C V. unfold unique. rewrite columns_ok by lia. cbn [bind].
  change (list_of _) with (points_of dim table).
  destruct (filter_defined valid search (init (points_of dim table)) d (seq 0 (length (points_of dim table))) V) as [s E].
  { apply Forall_forall. intros i I. apply in_seq in I. cbn. lia. }
  change (filter_all valid search (init (points_of dim table)) d = Ok (Ok tt, s)) in E. rewrite E. cbn [bind fst snd].
  destruct (apply_spec valid near search SO SY (init (points_of dim table)) d s (kept_rows table) E) as [k [K _]].
  { unfold kept_rows, points_of. cbn. rewrite !map_length. reflexivity. }
  exists s, k. split; [reflexivity|]. split; [exact K|]. unfold kept_rows in K. rewrite K. reflexivity.
Qed.
Theorem unique_spec : forall d (table : mat D) dim, dim <= cols table -> valid d = true ->
  exists r kept, unique valid search d table dim = Ok r /\ thinned (near d) dim table r kept.
Proof using SO SY.
  intros d table dim C V. destruct (unique_run d table dim C V) as (s & k & E & K & U). rewrite U.
  destruct (filter_all_spec valid near search SO SY _ _ _ E) as (P & INC & B & SEP & COV & _). cbn [init DistanceFilter.points] in *.
  assert (length (points_of dim table) = rows table) as LP by (unfold points_of; rewrite map_length, seq_length; reflexivity).
  destruct (apply_spec valid near search SO SY _ d s (kept_rows table) E) as (k' & K' & LK & NK).
  { unfold kept_rows. cbn. rewrite LP, map_length, seq_length. reflexivity. }
  rewrite K in K'. injection K' as <-. rewrite LP in *.
  eexists. exists (filtered_indices_ s). split; [reflexivity|]. unfold thinned. cbn [rows cols entry].
  split; [exact LK|]. split; [reflexivity|]. split; [exact INC|]. split; [exact B|]. split; [|split].
  - intros j i N e. specialize (NK j i N). unfold kept_rows in NK. rewrite nth_error_seq_map in NK by (apply B; eapply nth_error_In; exact N).
    rewrite (nth_error_nth k j (entry table 0) NK). reflexivity.
  - intros i j I J IJ N. apply (SEP i j I J IJ). exists (point_of dim table i), (point_of dim table j).
    unfold points_of. rewrite !nth_error_seq_map by (apply B; assumption). auto.
  - intros j J NJ. destruct (COV j J NJ) as (i & I & IJ & p & q & PI & QJ & N). exists i. split; [exact I|]. split; [exact IJ|].
    apply nth_error_seq_map_inv in PI, QJ. destruct PI as [_ ->], QJ as [_ ->]. exact N.
Qed.
Theorem unique_errors : forall d (table : mat D) dim,
  (cols table < dim -> unique valid search d table dim = UB) /\
  (dim <= cols table -> valid d = false -> unique valid search d table dim = Throw ExInvalidArgument).
Proof using.
  intros d table dim. split.
  - intros H. unfold unique. rewrite columns_bad by lia. reflexivity.
  - intros C V. unfold unique. rewrite columns_ok by lia. cbn [bind]. unfold filter_all. rewrite filter_rejects by exact V. reflexivity.
Qed.
Theorem unique_again : forall d (table r : mat D) dim, unique valid search d table dim = Ok r ->
  exists r', unique valid search d r dim = Ok r' /\ same r r'.
Proof using SO SY.
  intros d table r dim U.
  destruct (Nat.le_gt_cases dim (cols table)) as [C|C]; [|rewrite (proj1 (unique_errors d table dim) C) in U; discriminate].
  destruct (valid d) eqn:V; [|rewrite (proj2 (unique_errors d table dim) C V) in U; discriminate].
  destruct (unique_run d table dim C V) as (s & k & E & K & U1). rewrite U in U1. injection U1 as ->. set (r := Mat _ _ _) in *.
  destruct (unique_run d r dim C V) as (s2 & k2 & E2 & K2 & U2).
  assert (length (points_of dim table) = rows table) as LP by (unfold points_of; rewrite map_length, seq_length; reflexivity).
  destruct (apply_spec valid near search SO SY _ d s (kept_rows table) E) as (k' & K' & LK & NK).
  { unfold kept_rows. cbn. rewrite LP, map_length, seq_length. reflexivity. }
  rewrite K in K'. injection K' as <-.
  destruct (apply_spec valid near search SO SY _ d s (points_of dim table) E eq_refl) as (ps & AP & LPS & NP).
  destruct (filter_all_spec valid near search SO SY _ _ _ E) as (_ & _ & B & _). cbn [init DistanceFilter.points] in B. rewrite LP in B.
  assert (points_of dim r = ps) as PS.
  { apply nth_error_ext.
    - unfold points_of. rewrite map_length, seq_length, LPS. exact LK.
    - intros i I. unfold points_of in I |- *. rewrite map_length, seq_length in I. rewrite nth_error_seq_map by exact I. cbn [rows r] in I.
      destruct (nth_error (filtered_indices_ s) i) as [i0|] eqn:I0; [|apply nth_error_None in I0; lia].
      rewrite (NP _ _ I0). unfold points_of. assert (i0 < rows table) as I1 by (apply B; eapply nth_error_In; exact I0).
      rewrite nth_error_seq_map by exact I1. f_equal. unfold point_of. apply map_ext. intros e. unfold r. cbn [entry].
      specialize (NK _ _ I0). unfold kept_rows in NK. rewrite nth_error_seq_map in NK by exact I1. rewrite (nth_error_nth k i (entry table 0) NK). reflexivity. }
  rewrite PS in E2. destruct (filter_idempotent valid near search SO SY (init (points_of dim table)) d s ps s2 E AP E2) as [F2 _].
  assert (length ps = rows r) as LR by (rewrite LPS, <- LK; reflexivity).
  destruct (apply_spec valid near search SO SY (init ps) d s2 (kept_rows r) E2) as (k2' & K2' & LK2 & NK2).
  { unfold kept_rows. cbn. rewrite LR, map_length, seq_length. reflexivity. }
  rewrite K2 in K2'. injection K2' as <-. rewrite F2, seq_length, LR in LK2.
  eexists. split; [exact U2|]. split; [cbn [rows]; exact (eq_sym LK2)|]. split; [reflexivity|]. intros i j I _. cbn [entry].
  assert (nth_error (filtered_indices_ s2) i = Some i) as N.
  { rewrite F2, LR. rewrite (nth_error_nth' _ 0) by (rewrite seq_length; exact I). rewrite seq_nth by exact I. reflexivity. }
  specialize (NK2 _ _ N). unfold kept_rows in NK2. rewrite nth_error_seq_map in NK2 by exact I. rewrite (nth_error_nth k2 i (entry r 0) NK2). reflexivity.
Qed.
End Unique.

(** ** Tables with columns added *)
Lemma beside_two : forall {D : Type} junk (a b : mat D), rows b = rows a -> exists r, concatenate_cols junk a [b] = Ok r /\ beside a b r.
Proof.
  intros D junk a b R. destruct (concatenate_cols_spec junk a [b]) as [[r [E S]]|[E [x [I N]]]].
  - exists r. split; [exact E|]. destruct S as (SR & SC & SE). unfold beside. rewrite <- (SR a (or_introl eq_refl)).
    split; [reflexivity|]. split; [rewrite SC; cbn; lia|]. intros i I. split; intros j J.
    + exact (SE 0 a i j eq_refl I J).
    + rewrite <- (SE 1 b i j eq_refl ltac:(lia) J). f_equal. unfold start. cbn. lia.
  - destruct I as [<-|[]]. contradiction.
Qed.

(** ** cross-validate *)
Section Cross.
Context {D : Type}.
Variable junk : nat -> nat -> D.
Variable zero : D.
Variable to_int : D -> Z.
Variable fe : list (list D) -> list D -> list (list D) -> outcome (list D).
Hypothesis FE : one_value_per_point fe.
Variable table : mat D.
Variable dim : nat.
Hypothesis C : dim + 2 <= cols table.
Let ids := map to_int (column (dim + 1) table).
Lemma lengths : length (points_of dim table) = rows table /\ length (column dim table) = rows table /\ length ids = rows table.
Proof using. unfold points_of, column, ids, column. rewrite !map_length, seq_length. auto. Qed.
Lemma cross_unfold : forall order, cross_validate_table junk zero to_int fe order table dim =
  let* p := cross_validate zero fe (points_of dim table) (column dim table) ids order in
  concatenate_cols junk table [Mat (length p) 1 (fun i _ => nth i p zero)].
Proof using C.
  intros order. unfold cross_validate_table. rewrite !columns_ok by lia. cbn [bind]. change (list_of _) with (points_of dim table).
  assert (forall c, map (fun i => entry (Mat (rows table) 1 (fun i j => entry table i (c + j))) i 0) (seq 0 (rows table)) = column c table) as H.
  { intros c. unfold column. apply map_ext. intros i. cbn [entry]. f_equal. lia. }
  cbn [rows]. rewrite !H. reflexivity.
Qed.
Theorem cross_ok : forall order r, traversal ids order -> cross_validate_table junk zero to_int fe order table dim = Ok r ->
  exists p, beside table (Mat (rows table) 1 (fun i _ => p i)) r /\
    forall i, i < rows table -> held_out_prediction [] zero fe (points_of dim table) (column dim table) ids i (p i).
Proof using FE C.
  intros order r T H. rewrite cross_unfold in H. destruct lengths as (L1 & L2 & L3).
  destruct (cross_validate zero fe (points_of dim table) (column dim table) ids order) as [p| |] eqn:E; try discriminate. cbn [bind] in H.
  destruct (predictions_held_out zero [] zero fe FE (points_of dim table) (column dim table) ids ltac:(lia) ltac:(lia) order p T E) as [LP HP].
  rewrite L1 in LP. exists (fun i => nth i p zero). rewrite LP in H.
  destruct (beside_two junk table (Mat (rows table) 1 (fun i _ => nth i p zero)) eq_refl) as [r' [E' B]]. rewrite H in E'. injection E' as <-.
  split; [exact B|]. intros i I. apply HP. rewrite (nth_error_nth' p zero) by lia. reflexivity.
Qed.
Theorem cross_defined : forall order, traversal ids order ->
  ((exists r, cross_validate_table junk zero to_int fe order table dim = Ok r) <->
   forall id, In id ids -> exists fitted,
     fe (map (fun k => nth k (points_of dim table) []) (rows_out (rows table) ids id)) (map (fun k => nth k (column dim table) zero) (rows_out (rows table) ids id))
       (map (fun k => nth k (points_of dim table) []) (rows_in (rows table) ids id)) = Ok fitted).
Proof using FE C.
  intros order T. destruct lengths as (L1 & L2 & L3).
  pose proof (ok_iff zero [] zero fe FE (points_of dim table) (column dim table) ids ltac:(lia) ltac:(lia) order T) as K. rewrite L1 in K. rewrite <- K.
  split.
  - intros [r H]. rewrite cross_unfold in H. destruct (cross_validate zero fe (points_of dim table) (column dim table) ids order) as [p| |]; try discriminate. eauto.
  - intros [p E]. rewrite cross_unfold, E. cbn [bind].
    destruct (predictions_held_out zero [] zero fe FE (points_of dim table) (column dim table) ids ltac:(lia) ltac:(lia) order p T E) as [LP _]. rewrite L1 in LP.
    destruct (beside_two junk table (Mat (length p) 1 (fun i _ => nth i p zero)) LP) as [r [R _]]. eauto.
Qed.
End Cross.
Theorem cross_narrow : forall {D : Type} junk zero to_int fe order (table : mat D) dim, cols table < dim + 2 ->
  cross_validate_table junk zero to_int fe order table dim = UB.
Proof.
  intros D junk zero to_int fe order table dim H. unfold cross_validate_table, columns.
  destruct (Nat.leb_spec (0 + dim) (cols table)); [|reflexivity]. cbn [bind]. destruct (Nat.leb_spec (dim + 1) (cols table)); [|reflexivity]. cbn [bind].
  destruct (Nat.leb_spec (dim + 1 + 1) (cols table)); [lia|reflexivity].
Qed.

Section Truncate.
Local Open Scope R_scope.
Theorem truncate_spec : forall x, whole_part x (truncate x).
Proof.
  intros x. unfold truncate, whole_part. destruct (Rle_dec 0 x) as [P|P].
  - pose proof (base_Int_part x) as [A B]. split; [intros; lra|]. intros Q. assert (x = 0) by lra. subst x.
    assert (-1 < Int_part 0)%Z by (apply lt_IZR; lra). assert (Int_part 0 < 1)%Z by (apply lt_IZR; lra).
    replace (Int_part 0) with 0%Z by lia. lra.
  - pose proof (base_Int_part (- x)) as [A B]. rewrite opp_IZR. split; intros; lra.
Qed.
Theorem whole_part_unique : forall x z z', whole_part x z -> whole_part x z' -> z = z'.
Proof.
  intros x z z' [A B] [A' B']. destruct (Rle_lt_dec 0 x) as [P|P].
  - specialize (A P). specialize (A' P). assert (z < z' + 1)%Z by (apply lt_IZR; rewrite plus_IZR; lra). assert (z' < z + 1)%Z by (apply lt_IZR; rewrite plus_IZR; lra). lia.
  - specialize (B ltac:(lra)). specialize (B' ltac:(lra)). assert (z < z' + 1)%Z by (apply lt_IZR; rewrite plus_IZR; lra). assert (z' < z + 1)%Z by (apply lt_IZR; rewrite plus_IZR; lra). lia.
Qed.
Theorem truncate_is : forall x z, whole_part x z -> truncate x = z.
Proof. intros x z H. exact (whole_part_unique x _ _ (truncate_spec x) H). Qed.
End Truncate.

(** ** estimate-normals *)
Theorem estimation_choice : forall {D : Type} (k : option (list Z)) (radius : option (list D)),
  (choose_estimation k radius = Throw ExRuntimeError <-> k <> None /\ radius <> None) /\
  (forall ks, choose_estimation k radius = Ok (Knn ks) <-> radius = None /\ (k = Some ks \/ (k = None /\ ks = [10; 30; 100; 300]%Z))) /\
  (forall rs, choose_estimation k radius = Ok (Radius rs) <-> k = None /\ radius = Some rs).
Proof.
  intros D [k|] [r|]; cbn; (split; [|split]); try (intros x; split).
  all: try solve [split; intros; try discriminate; intuition congruence].
  all: try solve [intros H; intuition congruence].
  all: try solve [intros H; discriminate].
Qed.
Theorem orientation_choice : forall {P : Type} (point direction : option P) (closed : option Z),
  (choose_orientation point direction closed = Throw ExRuntimeError <-> 1 < count point + count direction + count closed) /\
  (forall p, choose_orientation point direction closed = Ok (TowardPoint p) <-> point = Some p /\ direction = None /\ closed = None) /\
  (forall v, choose_orientation point direction closed = Ok (TowardDirection v) <-> point = None /\ direction = Some v /\ closed = None) /\
  (forall k, choose_orientation point direction closed = Ok (ClosedSurface k) <-> point = None /\ direction = None /\ (closed = Some k \/ (closed = None /\ k = 100%Z))).
Proof.
  intros P p d c. destruct p, d, c; cbn; (split; [|split; [|split]]); try intros x; split; intros H; try discriminate; try lia; try reflexivity; try (injection H as <-; auto 6); try (intuition congruence).
Qed.
Theorem normals_spec : forall {D : Type} junk (estimate : mat D -> mat D) (table : mat D), 3 <= cols table ->
  (forall p, rows (estimate p) = rows p /\ cols (estimate p) = 3) ->
  exists r points, points = Mat (rows table) 3 (entry table) /\ normals_table junk estimate table = Ok r /\ beside points (estimate points) r.
Proof.
  intros D junk est table C H. unfold normals_table. rewrite columns_ok by lia. cbn [bind].
  change (Mat (rows table) 3 (fun i j => entry table i (0 + j))) with (Mat (rows table) 3 (entry table)).
  set (p := Mat (rows table) 3 (entry table)). destruct (beside_two junk p (est p)) as [r [E B]]; [apply H|]. exists r, p. auto.
Qed.

(** ** isosurface *)
Theorem box_choice : forall given of_interpolant,
  (is_empty given = false -> mesh_box given of_interpolant = given) /\ (is_empty given = true -> mesh_box given of_interpolant = of_interpolant).
Proof. intros g b. unfold mesh_box. destruct (is_empty g); split; congruence. Qed.
Theorem box_default : forall dim of_interpolant, 0 < dim -> mesh_box (empty dim) of_interpolant = of_interpolant.
Proof. intros dim b D. unfold mesh_box, is_empty, empty. destruct dim; [lia|]. reflexivity. Qed.

Lemma reshape_length : forall {D : Type} n c (b : list D), length (reshape n c b) = n.
Proof. intros D n c. induction n as [|n IH]; intros b; cbn; auto. Qed.
Section Read.
Context {D : Type}.
Variable to_double : list ascii -> D.
Lemma read_lines_size : forall ds ls n buf, n <= length buf -> let r := read_lines to_double ds ls n buf in fst r <= length (snd r).
Proof using.
  intros ds ls. induction ls as [|l ls IH]; intros n buf H; cbn [read_lines]; [exact H|].
  destruct (is_comment l); [apply IH; exact H|]. destruct (Nat.eqb_spec n 0) as [E|E].
  - apply IH. rewrite app_length, map_length. lia.
  - destruct (negb _); apply IH; [exact H|]. rewrite app_length. lia.
Qed.
Theorem read_nonempty : forall ds file t, read_table to_double ds file = Ok t -> t <> [].
Proof using.
  intros ds [text|] t H; [|discriminate]. unfold read_table in H.
  pose proof (read_lines_size ds (getlines text) 0 [] (le_n 0)) as S. cbv zeta in S.
  destruct (read_lines to_double ds (getlines text) 0 []) as [n buf]. cbn [fst snd] in S. destruct (Nat.eqb_spec n 0) as [E|E]; [discriminate|].
  injection H as <-. intros H. apply (f_equal (@length _)) in H. rewrite reshape_length in H. cbn in H.
  apply Nat.div_small_iff in H; lia.
Qed.
Theorem seeds_used : forall zero ds file t, read_table to_double ds file = Ok t ->
  (3 <= cols (of_list zero t) -> exists p, choose_start (Some (of_list zero t)) = Ok (FromSeeds p) /\ rows p = length t /\ 0 < length t /\ cols p = 3 /\
     forall i j, entry p i j = nth j (nth i t []) zero) /\
  (cols (of_list zero t) < 3 -> choose_start (Some (of_list zero t)) = UB).
Proof using.
  intros zero ds file t H. apply read_nonempty in H. split; intros C.
  - unfold choose_start. rewrite columns_ok by lia. cbn [bind rows of_list].
    destruct (Nat.ltb_spec 0 (length t)) as [L|L]; [|destruct t; [contradiction|cbn in L; lia]]. eexists. split; [reflexivity|]. repeat split; exact L.
  - unfold choose_start. rewrite columns_bad by lia. reflexivity.
Qed.
End Read.
Theorem snap_spec : forall {D : Type} (table : mat D),
  (cols table < 3 -> snap_input table = UB) /\
  (cols table = 3 -> snap_input table = Ok (Mat (rows table) 3 (entry table), [])) /\
  (3 < cols table -> snap_input table = Ok (Mat (rows table) 3 (entry table), column 3 table)).
Proof.
  intros D table. unfold snap_input. repeat split; intros C.
  - destruct (Nat.leb_spec 4 (cols table)); [lia|]. cbn [bind]. rewrite columns_bad by lia. reflexivity.
  - destruct (Nat.leb_spec 4 (cols table)); [lia|]. cbn [bind]. rewrite columns_ok by lia. reflexivity.
  - destruct (Nat.leb_spec 4 (cols table)); [|lia]. cbn [bind]. rewrite !columns_ok by lia. reflexivity.
Qed.
Theorem aniso_spec : forall {D : Type} (zero : D) values,
  (length values <> 9 -> aniso_option zero values = None) /\
  (length values = 9 -> exists m, aniso_option zero values = Some m /\ values = flat_map (fun i => map (m i) (seq 0 3)) (seq 0 3)).
Proof.
  intros D zero values. unfold aniso_option. destruct (Nat.eqb_spec (length values) 9) as [E|E]; split; intros H; try contradiction; [|reflexivity].
  eexists. split; [reflexivity|]. do 9 (destruct values as [|? values]; [discriminate|]). destruct values; [reflexivity|discriminate].
Qed.

(** ** variogram *)
Section Variogram.
Local Open Scope R_scope.
Theorem calculator_spec : forall distance lags lag_tol angle_tol aniso dim, (1 <= dim <= 3)%nat ->
  (lag_tol = -1 \/ 0 < lag_tol) -> (degrees angle_tol = -1 \/ 0 < degrees angle_tol) ->
  exists c, variogram_calculator distance lags lag_tol angle_tol aniso dim = Ok c /\ lag_distance c = distance /\ num_lags c = lags /\
    tolerance lag_tol (lag_tolerance c) /\ tolerance (degrees angle_tol) (angle_tolerance c) /\
    (aniso = false -> n_directions c = n_directions (make dim distance lags) /\ directions c = directions (make dim distance lags)) /\
    (aniso = true -> exists c0, set_directions dim (length (anisotropic dim)) (Directions.rows (anisotropic dim)) c0 = Ok c).
Proof.
  intros distance lags lt at_ aniso dim D HL HA. unfold variogram_calculator.
  destruct (proj1 (lag_setter lt (make dim distance lags)) HL) as (c1 & E1 & S1 & L1 & L1'). rewrite E1. cbn [bind].
  destruct (proj1 (angle_setter (degrees at_) c1) HA) as (c2 & E2 & S2 & A2 & A2'). rewrite E2. cbn [bind].
  destruct S1 as (P1 & P2 & P3 & P4 & P5), S2 as (Q1 & Q2 & Q3 & Q4 & Q5).
  assert (tolerance lt (lag_tolerance c2)) as TL by (rewrite Q3; unfold tolerance; destruct HL as [H|H]; [left|right]; auto).
  assert (tolerance (degrees at_) (angle_tolerance c2)) as TA by (unfold tolerance; destruct HA as [H|H]; [left|right]; auto).
  destruct aniso.
  - destruct (proj2 (directions_setter dim (length (anisotropic dim)) (Directions.rows (anisotropic dim)) c2)) as (c & E & S & _).
    { pose proof (size_pos dim D). lia. }
    destruct S as (R1 & R2 & R3 & R4). exists c. split; [exact E|]. rewrite R1, R2, R3, R4, Q1, Q2, P1, P2.
    repeat (split; [try reflexivity; assumption|]). split; [discriminate|]. intros _. exists c2. exact E.
  - exists c2. split; [reflexivity|]. rewrite Q1, Q2, P1, P2, Q4, Q5, P4, P5.
    repeat (split; [try reflexivity; assumption|]). split; [auto|discriminate].
Qed.
Theorem calculator_rejects : forall distance lags lag_tol angle_tol aniso dim,
  ~ (lag_tol = -1 \/ 0 < lag_tol) \/ ~ (degrees angle_tol = -1 \/ 0 < degrees angle_tol) ->
  variogram_calculator distance lags lag_tol angle_tol aniso dim = Throw ExInvalidArgument.
Proof.
  intros distance lags lt at_ aniso dim H. unfold variogram_calculator.
  destruct (lag_setter lt (make dim distance lags)) as [L1 L2].
  destruct (Req_EM_T lt (-1)) as [E|E]; [|destruct (Rlt_dec 0 lt) as [P|P]].
  1,2: destruct L1 as (c1 & E1 & _); [auto|]; rewrite E1; cbn [bind]; destruct H as [H|H]; [exfalso; tauto|];
    rewrite (proj2 (angle_setter (degrees at_) c1) H); reflexivity.
  rewrite L2 by tauto. reflexivity.
Qed.
Lemma degrees_pos : forall a, 0 < a -> 0 < degrees a /\ degrees a = a * (PI / 180).
Proof.
  intros a H. unfold degrees, automatic. destruct (Req_EM_T a (-1)); [lra|]. pose proof PI_RGT_0. split; [|reflexivity].
  apply Rmult_lt_0_compat; lra.
Qed.
Theorem degrees_wide : forall distance lags lag_tol angle_tol dim c, (1 <= dim <= 3)%nat -> 15 <= angle_tol <= 90 ->
  variogram_calculator distance lags lag_tol angle_tol true dim = Ok c ->
  forall points i j, exists k, counted dim points c i j k.
Proof.
  intros distance lags lt a dim c D A H points i j. destruct (degrees_pos a ltac:(lra)) as [DP DE].
  assert (lt = -1 \/ 0 < lt) as HL.
  { destruct (Req_EM_T lt (-1)); [auto|]. destruct (Rlt_dec 0 lt); [auto|]. rewrite calculator_rejects in H by tauto. discriminate. }
  destruct (calculator_spec distance lags lt a true dim D HL (or_intror DP)) as (c' & E & _ & _ & _ & TA & _ & TD). rewrite H in E. injection E as <-.
  destruct (TD eq_refl) as [c0 SD]. destruct TA as [[T _]|[_ T]]; [lra|].
  apply (wide_enough dim points c0 c D SD _ T). rewrite DE. pose proof PI_RGT_0 as P.
  assert (0 <= a * (PI / 180) <= PI / 2) as R by (split; nra). split.
  - apply cos_ge_0; lra.
  - apply Rle_trans with (cos (PI / 12)).
    + apply cos_decr_1; nra.
    + assert (cos (PI / 12) <= 971 / 1000) as B.
      { pose proof (cos_2a_cos (PI / 12)) as C2. replace (2 * (PI / 12)) with (PI / 6) in C2 by field. rewrite cos_PI6 in C2.
        pose proof (cos_ge_0 (PI / 12) ltac:(lra) ltac:(lra)) as C0. pose proof (sqrt_sqrt 3 ltac:(lra)) as S3. pose proof (sqrt_pos 3) as SP.
        assert (sqrt 3 <= 1733 / 1000) by (clear - S3 SP; nra). clear - C2 C0 H0. nra. }
      unfold coverage. destruct dim as [|[|[|d]]]; lra.
Qed.
Theorem degrees_narrow : forall distance lags lag_tol angle_tol c, 0 < angle_tol <= 10 ->
  variogram_calculator distance lags lag_tol angle_tol true 3 = Ok c -> forall k, ~ counted 3 hole c 0 1 k.
Proof.
  intros distance lags lt a c A H. destruct (degrees_pos a ltac:(lra)) as [DP DE].
  assert (lt = -1 \/ 0 < lt) as HL.
  { destruct (Req_EM_T lt (-1)); [auto|]. destruct (Rlt_dec 0 lt); [auto|]. rewrite calculator_rejects in H by tauto. discriminate. }
  destruct (calculator_spec distance lags lt a true 3 ltac:(lia) HL (or_intror DP)) as (c' & E & _ & _ & _ & TA & _ & TD). rewrite H in E. injection E as <-.
  destruct (TD eq_refl) as [c0 SD]. destruct TA as [[T _]|[_ T]]; [lra|].
  apply (too_narrow c0 c _ SD T). rewrite DE. pose proof PI_RGT_0 as P. pose proof PI_4 as P4. set (y := a * (PI / 180) / 2).
  replace (a * (PI / 180)) with (2 * y) by (unfold y; field). rewrite cos_2a_sin.
  assert (0 < a * PI <= 40) as Y0 by (clear - A P P4; split; nra). assert (0 < y <= / 9) as Y by (unfold y; lra).
  assert (0 <= sin y <= / 9).
  { pose proof PI2_1. split; [apply sin_ge_0; lra|]. pose proof (sin_lt_x y ltac:(lra)). lra. }
  clear - H0; nra.
Qed.
Theorem negative_degrees : exists a c, a < 0 /\ a <> -1 /\ variogram_calculator 1 10 (-1) a false 3 = Ok c /\ angle_tolerance c = None.
Proof.
  pose proof PI_RGT_0 as P. pose proof PI_4 as P4. exists (- (180 / PI)).
  assert (45 <= 180 / PI) as Q. { apply Rmult_le_reg_r with PI; [exact P|]. unfold Rdiv. rewrite Rmult_assoc, Rinv_l by lra. lra. }
  assert (degrees (- (180 / PI)) = -1) as E.
  { unfold degrees, automatic. destruct (Req_EM_T (- (180 / PI)) (-1)); [lra|]. field. lra. }
  destruct (calculator_spec 1 10 (-1) (- (180 / PI)) false 3 ltac:(lia) (or_introl eq_refl) (or_introl E)) as (c & V & _ & _ & _ & T & _).
  exists c. split; [lra|]. split; [lra|]. split; [exact V|]. destruct T as [[_ T]|[T _]]; [exact T|lra].
Qed.
Theorem values_spec : forall {V : Type} (detrend : Z -> V -> V) (transform : V -> V) degree (values : V),
  ((degree < 0)%Z -> variogram_values detrend transform degree false values = values /\
     variogram_values detrend transform degree true values = transform values) /\
  ((0 <= degree)%Z -> variogram_values detrend transform degree false values = detrend degree values /\
     variogram_values detrend transform degree true values = transform (detrend degree values)).
Proof. intros V d t k v. unfold variogram_values. destruct (Z.leb_spec 0 k); split; intros; auto; lia. Qed.
End Variogram.
