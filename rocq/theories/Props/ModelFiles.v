From Coq Require Import String Ascii List NArith ZArith Bool Reals Lia.
From Verif Require Import Proofs.Io Proofs.ModelFiles.
From Verif Require Import Model.Outcome Model.RbfModel Model.ModelArgs Model.Io Model.ModelFiles Spec.RbfModel Spec.ModelArgs Spec.Io Spec.ModelFiles.
From Verif Require Model.Rbfs Model.VariogramFitting.
Import ListNotations.
Local Open Scope N_scope.

(** C73: create-model writes the model that its arguments spell, or throws; what it writes can be loaded, whatever follows in the file. *)
Theorem C73_create : forall d junk max_elems det_pos nonneg to_double ts nug deg file,
  machine d max_elems det_pos to_double (List.length ts) -> nug < 2 ^ 64 -> create_model d det_pos nonneg to_double ts nug deg = Ok file ->
  exists xs m, ts = concat (map text xs) /\ Forall (well_formed d) xs /\ Forall2 (stores d to_double) xs (rbfs m) /\ nugget m = nug /\ nonneg nug = true /\
    (-1 <= Io.poly_degree m <= 2)%Z /\ (deg <> -2 -> Io.poly_degree m = deg)%Z /\
    forall tail, load_model d junk max_elems det_pos (file ++ tail) = Ok m.
Proof.
  intros d junk me dp nn td ts nug deg file M B C. destruct (create_spec d me dp nn td _ M ts nug deg file eq_refl B C) as (xs & m & P1 & P2 & P3 & P4 & P5 & P6 & P7 & P8 & ->).
  exists xs, m. repeat (split; [assumption|]). intros tail. exact (load_written d junk me dp m tail P8).
Qed.
Print Assumptions C73_create.
Theorem C73_create_defined : forall d det_pos nonneg to_double ts nug deg,
  (exists file, create_model d det_pos nonneg to_double ts nug deg = Ok file) \/ (exists e, create_model d det_pos nonneg to_double ts nug deg = Throw e).
Proof. exact (fun d dp nn td => create_defined d dp nn td). Qed.
Print Assumptions C73_create_defined.

(** C73: extract-model applied to what fit made of a model file gives that file back, byte by byte. *)
Theorem C73_extract : forall d junk max_elems det_pos nonneg to_double fit ts nug deg f g,
  machine d max_elems det_pos to_double (List.length ts) -> nug < 2 ^ 64 -> (forall m r, fit m = Ok r -> saveable_result d max_elems r) ->
  create_model d det_pos nonneg to_double ts nug deg = Ok f -> fit_model d junk max_elems det_pos fit f = Ok g ->
  extract_model d junk max_elems det_pos g = Ok f.
Proof. exact (fun d junk me dp nn td fit ts nug deg f g M B => fit_extract d junk me dp nn td _ M fit ts nug deg f g eq_refl B). Qed.
Print Assumptions C73_extract.

(** C73: what fit writes is the interpolant that was fitted to the model in the file. *)
Theorem C73_fit : forall d junk max_elems det_pos nonneg to_double fit ts nug deg f g tail,
  machine d max_elems det_pos to_double (List.length ts) -> nug < 2 ^ 64 -> (forall m r, fit m = Ok r -> saveable_result d max_elems r) ->
  create_model d det_pos nonneg to_double ts nug deg = Ok f -> fit_model d junk max_elems det_pos fit f = Ok g ->
  exists m c gc b w, load_model d junk max_elems det_pos f = Ok m /\ fit m = Ok (c, gc, b, w) /\
    load_interpolant d junk max_elems det_pos (g ++ tail) = Ok (mk_interpolant m true c gc b w).
Proof.
  intros d junk me dp nn td fit ts nug deg f g tail M B S C F. apply fit_written; auto. intros m L.
  destruct (create_spec d me dp nn td _ M ts nug deg f eq_refl B C) as (xs & m' & _ & _ & _ & _ & _ & _ & _ & P8 & ->).
  pose proof (load_written d junk me dp m' [] P8) as L'. rewrite app_nil_r in L'. congruence.
Qed.
Print Assumptions C73_fit.

(** C73: a function in a file is the formula of its name, with its two parameters and its matrix, row by row. *)
Theorem C73_functions : forall d real nm q a b rows, In (nm, q) meaning -> List.length rows = d -> Forall (fun r => List.length r = d) rows ->
  exists an, stored_function d real (mk_rbf (bytes_of_string nm) [a; b] (concat rows)) = Some (VariogramFitting.Function q (real a) (real b) an) /\
  forall i j, (i < d)%nat -> (j < d)%nat -> an i j = real (nth j (nth i rows []) 0).
Proof. exact stored_meaning. Qed.
Print Assumptions C73_functions.

(** C73: from an interpolant file that has lost its end, extract-model never gives a wrong model. *)
Theorem C73_extract_truncated : forall d junk max_elems det_pos t k out,
  saveable_interpolant d max_elems det_pos t -> (k < List.length (write_interpolant t))%nat ->
  extract_model d junk max_elems det_pos (firstn k (write_interpolant t)) = Ok out -> out = write_model (model_ t).
Proof. exact extract_prefix. Qed.
Print Assumptions C73_extract_truncated.

(** C73: show-model prints the nugget and the sills that were given to create-model; it throws exactly if one of the functions is polyharmonic. *)
Theorem C73_show : forall d junk max_elems det_pos nonneg to_double real eigen ts nug deg f,
  machine d max_elems det_pos to_double (List.length ts) -> nug < 2 ^ 64 -> create_model d det_pos nonneg to_double ts nug deg = Ok f ->
  exists xs, ts = concat (map text xs) /\ Forall (well_formed d) xs /\
    (Exists polyharmonic xs -> show_model d junk max_elems det_pos real eigen f = Throw ExRuntimeError) /\
    (~ Exists polyharmonic xs -> exists out, show_model d junk max_elems det_pos real eigen f = Ok out /\ fst out = real nug /\
       Forall2 (fun x l => exists a b, map to_double (i_params x) = [a; b] /\ fst l = real a) xs (snd out)).
Proof. exact (fun d junk me dp nn td real eigen ts nug deg f M B => show_spec d junk me dp nn td _ M real eigen ts nug deg f eq_refl B). Qed.
Print Assumptions C73_show.

(** C73: the file does not tell its dimension. A model of one function made for two or three dimensions is loaded in one dimension without complaint, with degree 0 and without
    nugget, whatever they were. *)
Theorem C73_wrong_dimension_refuted : forall junk max_elems det_pos d k a b deg nug, (d = 2 \/ d = 3)%nat -> 1 <= max_elems -> size_ok max_elems 3 ->
  a < 2 ^ 64 -> b < 2 ^ 64 -> det_pos [Io.one] = true ->
  load_model 1 junk max_elems det_pos (write_model (mk_model [mk_rbf (file_name k) [a; b] (identity d)] deg nug))
  = Ok (mk_model [mk_rbf (file_name k) [a; b] (identity 1)] 0 0).
Proof. exact wrong_dimension. Qed.
Print Assumptions C73_wrong_dimension_refuted.

(** C73: every kind of evaluator is there for every function, and is the one of that function; ... *)
Theorem C73_evaluators : forall f k, make_fmm f k = Ok (f, k).
Proof. exact make_fmm_spec. Qed.
Print Assumptions C73_evaluators.
(** ... so that whatever bytes a model was loaded from, its evaluators and operators can be made. *)
Theorem C73_loaded : forall d junk max_elems det_pos file m, load_model d junk max_elems det_pos file = Ok m ->
  exists ks, map (fun r => stored_kind (name r)) (rbfs m) = map Some ks /\
    make_all evaluator_families ks = Ok (map (fun k => [(Values, k); (Gradients, k); (GradientTransposes, k); (Hessians, k)]) ks) /\
    make_all operator_families ks = Ok (map (fun k => [(SymmetricValues, k); (Gradients, k); (GradientTransposes, k); (SymmetricHessians, k)]) ks).
Proof.
  intros d junk me dp file m H. destruct (loaded_evaluators d junk me dp file m evaluator_families H) as (ks & E & F). exists ks. split; [exact E|]. split; [exact F|].
  exact (make_all_spec operator_families ks).
Qed.
Print Assumptions C73_loaded.

(** Two functions in two dimensions. *)
Definition example_double (t : token) : N := fold_left (fun x c => 10 * x + (N_of_ascii c - 48)) (firstn 15 t) 0.
Definition example_args : list token := map tok ["exp"; "1"; "2"; "aniso"; "1"; "0"; "0"; "3"; "gau"; "5"; "6"]%string.
Definition example_create (dim : nat) := create_model dim (fun a => negb (nth 0 a 0 =? 0)) (fun _ => true) example_double.
Definition example_fit (m : Io.model) : outcome fit_result := Ok (mk_dynmat 1 [4; 5], mk_dynmat 0 [], mk_bbox [4; 5] [4; 5], mk_dynmat 1 [7]).
Example C73_example :
  machine 2 1000 (fun a => negb (nth 0 a 0 =? 0)) example_double (List.length example_args) /\
  match example_create 2 example_args 9 (-2) with
  | Ok f =>
      List.length f = 154%nat /\
      load_model 2 (fun _ => 0) 1000 (fun a => negb (nth 0 a 0 =? 0)) f =
        Ok (mk_model [mk_rbf (bytes_of_string "exp") [1; 2] [1; 0; 0; 3]; mk_rbf (bytes_of_string "gau") [5; 6] (identity 2)] (-1) 9) /\
      match fit_model 2 (fun _ => 0) 1000 (fun a => negb (nth 0 a 0 =? 0)) example_fit f with
      | Ok g => extract_model 2 (fun _ => 0) 1000 (fun a => negb (nth 0 a 0 =? 0)) g = Ok f
      | _ => False
      end
  | _ => False
  end /\
  example_create 2 (map tok ["exp"; "1"; "2"; "aniso"; "0"; "0"; "0"; "3"]%string) 9 (-2) = Throw ExInvalidArgument.
Proof.
  split; [|split; [vm_compute; auto|vm_compute; reflexivity]]. split; [|split; [vm_compute; reflexivity|split; split; vm_compute; (reflexivity || discriminate)]].
  intros t. unfold example_double.
  assert (G : forall l k x, (List.length l <= k)%nat -> fold_left (fun x c => 10 * x + (N_of_ascii c - 48)) l x <= 10 ^ N.of_nat k * (x + 23)).
  { induction l as [|c l IH]; intros k x L; cbn [fold_left].
    - enough (1 <= 10 ^ N.of_nat k) by nia. pose proof (N.pow_nonzero 10 (N.of_nat k)). lia.
    - destruct k; [cbn in L; lia|]. specialize (IH k (10 * x + (N_of_ascii c - 48)) ltac:(cbn in L; lia)).
      assert (N_of_ascii c < 256) by apply N_ascii_bounded. rewrite Nat2N.inj_succ, N.pow_succ_r'. nia. }
  specialize (G (firstn 15 t) 15%nat 0 ltac:(apply firstn_le_length)). eapply N.le_lt_trans; [exact G|]. vm_compute. reflexivity.
Qed.
