From Coq Require Import List NArith ZArith Lia String.
From Verif Require Import Proofs.Io Proofs.IoPrefix.
From Verif Require Import Model.Outcome Model.Io Spec.Io.
Import ListNotations.
Local Open Scope N_scope.

(** C03: each serialisable type reads back exactly what was written, whatever follows in the stream,
    whatever uninitialised memory contains, and whatever the destination object held before. *)
Theorem C03_rbf_round_trip :
  forall d junk max_elems det_pos (r old : rbf),
  saveable_rbf d max_elems det_pos r ->
  round_trip write_rbf (read_rbf d junk max_elems det_pos) old r.
Proof. exact (fun d junk me dp r old => read_rbf_rt d junk me dp r old). Qed.
Print Assumptions C03_rbf_round_trip.

Theorem C03_model_round_trip :
  forall d junk max_elems det_pos (m : model) tail,
  saveable_model d max_elems det_pos m ->
  load_model d junk max_elems det_pos (write_model m ++ tail) = Ok m.
Proof.
  exact (fun d junk me dp m tail H =>
    load_of_rt _ _ default_model m tail (read_model_rt d junk me dp m default_model H)).
Qed.
Print Assumptions C03_model_round_trip.

Theorem C03_interpolant_round_trip :
  forall d junk max_elems det_pos (t : interpolant) tail,
  saveable_interpolant d max_elems det_pos t ->
  load_interpolant d junk max_elems det_pos (write_interpolant t ++ tail) = Ok t.
Proof.
  exact (fun d junk me dp t tail H =>
    load_of_rt _ _ (default_interpolant d) t tail
      (read_interpolant_rt d junk me dp t (default_interpolant d) H
         (proj1 (default_bbox_lengths d)) (proj2 (default_bbox_lengths d)))).
Qed.
Print Assumptions C03_interpolant_round_trip.

(** The same, saying also that exactly the written bytes are consumed, so that an object can be
    embedded in a larger file. *)
Theorem C03_interpolant_consumes_exactly :
  forall d junk max_elems det_pos (t : interpolant),
  saveable_interpolant d max_elems det_pos t ->
  round_trip write_interpolant (read_interpolant d junk max_elems det_pos)
             (default_interpolant d) t.
Proof.
  exact (fun d junk me dp t H =>
      read_interpolant_rt d junk me dp t (default_interpolant d) H
         (proj1 (default_bbox_lengths d)) (proj2 (default_bbox_lengths d))).
Qed.
Print Assumptions C03_interpolant_consumes_exactly.

Theorem C03_variogram_set_round_trip :
  forall d junk max_elems (vs : list variogram) tail,
  saveable_variogram_set d max_elems vs ->
  load_variogram_set d junk max_elems (write_variogram_set vs ++ tail) = Ok vs.
Proof.
  exact (fun d junk me vs tail H =>
    load_of_rt _ _ [] vs tail (read_variogram_set_rt d junk me vs [] H (Forall_nil _))).
Qed.
Print Assumptions C03_variogram_set_round_trip.

(** A saveable one-dimensional interpolant with two RBFs, two centers and three weights. *)
Definition ex_model : model :=
  mk_model [mk_rbf (bytes_of_string "exp"%string) [one; 4611686018427387904] [one];
            mk_rbf (bytes_of_string "bh3"%string) [one; 0] [4607182418800017409]] 1 4591870180066957722.
Definition ex_interpolant : interpolant :=
  mk_interpolant ex_model true (mk_dynmat 2 [zero; one]) (mk_dynmat 0 [])
    (mk_bbox [zero] [one]) (mk_dynmat 3 [one; 13830554455654793216; 5]).

Ltac solve_saveable :=
  repeat match goal with
  | |- _ /\ _ => split
  | |- saveable_model _ _ _ _ => unfold saveable_model
  | |- saveable_rbf _ _ _ _ => unfold saveable_rbf
  | |- saveable_dynmat _ _ _ => unfold saveable_dynmat
  | |- saveable_bbox _ _ => unfold saveable_bbox
  | |- size_ok _ _ => unfold size_ok
  | |- fits _ _ => unfold fits
  | |- Forall _ _ => constructor
  | |- _ => solve [cbn; lia | reflexivity]
  end.

Example C03_interpolant_round_trip_ex :
  saveable_interpolant 1 1000 (fun _ => true) ex_interpolant /\
  List.length (write_interpolant ex_interpolant) = 187%nat /\
  load_interpolant 1 (fun _ => 77) 1000 (fun _ => true)
    (write_interpolant ex_interpolant ++ [1; 2; 3]) = Ok ex_interpolant.
Proof.
  split; [|split; vm_compute; reflexivity].
  unfold saveable_interpolant. cbn [model_ centers grad_centers ibbox weights ex_interpolant].
  solve_saveable; unfold known; cbn; auto 10.
Qed.

Definition ex_variograms : list variogram :=
  [mk_variogram [one; zero] [zero; one] [3; 4] [one; zero]; mk_variogram [] [] [] [zero; one]].

Example C03_variogram_set_round_trip_ex :
  saveable_variogram_set 2 100 ex_variograms /\
  load_variogram_set 2 (fun _ => 9) 100 (write_variogram_set ex_variograms) = Ok ex_variograms.
Proof.
  split; [|vm_compute; reflexivity].
  unfold saveable_variogram_set, ex_variograms. split; [solve_saveable|].
  repeat constructor; unfold fits; repeat constructor; cbn; lia.
Qed.

(** C04: an empty file loads as a model with no RBF at all, which the public constructor rejects. *)
Theorem C04_empty_file_refuted :
  forall d junk max_elems det_pos,
  load_model d junk max_elems det_pos [] = Ok default_model.
Proof. exact empty_model_file. Qed.
Print Assumptions C04_empty_file_refuted.

(** C04: for every model, losing any of the last eight bytes of the file is silently accepted, and
    the nugget loses its high-order bytes (becoming exactly 0.0 when all eight are lost). *)
Theorem C04_truncated_model_refuted :
  forall d junk max_elems det_pos (m : model) k,
  saveable_model d max_elems det_pos m -> (k <= 8)%nat ->
  load_model d junk max_elems det_pos (cut k (write_model m))
  = Ok (mk_model (rbfs m) (poly_degree m) (nugget m mod 256 ^ N.of_nat (8 - k))).
Proof. exact cut_nugget. Qed.
Print Assumptions C04_truncated_model_refuted.

Example C04_truncated_model_refuted_ex :
  load_model 1 (fun _ => 77) 1000 (fun _ => true) (cut 1 (write_model ex_model))
  = Ok (mk_model (rbfs ex_model) 1 52241755677497754).
Proof. vm_compute. reflexivity. Qed.

(** C04: for every interpolant, cutting off the last [j] weights is silently accepted; the missing
    weights of the resulting (still "fitted") interpolant are whatever the memory contained. *)
Theorem C04_truncated_interpolant_refuted :
  forall d junk max_elems det_pos (t : interpolant) j,
  saveable_interpolant d max_elems det_pos t ->
  (j <= nrows (weights t))%nat -> fits 8 (uninit junk (nrows (weights t))) ->
  load_interpolant d junk max_elems det_pos (cut (8 * j) (write_interpolant t))
  = Ok (mk_interpolant (model_ t) (fitted t) (centers t) (grad_centers t) (ibbox t)
          (mk_dynmat (nrows (weights t))
             (firstn (nrows (weights t) - j) (coeffs (weights t)) ++
              skipn (nrows (weights t) - j) (uninit junk (nrows (weights t)))))).
Proof. exact cut_weights. Qed.
Print Assumptions C04_truncated_interpolant_refuted.

Example C04_truncated_interpolant_refuted_ex :
  match load_interpolant 1 (fun _ => 77) 1000 (fun _ => true)
          (cut 16 (write_interpolant ex_interpolant)) with
  | Ok t => fitted t = true /\ coeffs (weights t) = [one; 77; 77]
  | _ => False
  end.
Proof. vm_compute. auto. Qed.

(** C04: what becomes of every proper prefix of a model file. Losing at most the last twelve bytes is accepted and keeps the RBFs; with more
    missing, the file is rejected, or gives a model without degree and nugget that has no RBF at all or has lost parameters or the anisotropy of
    its last RBF. Nothing undefined happens. *)
Theorem C04_model_prefixes :
  forall d junk max_elems det_pos (m : model) k,
  saveable_model d max_elems det_pos m -> (k < List.length (write_model m))%nat ->
  match load_model d junk max_elems det_pos (firstn k (write_model m)) with
  | UB => False
  | Throw _ => (k < List.length (write_model m) - 12)%nat
  | Ok m' =>
      if Nat.ltb k (List.length (write_model m) - 12)
      then poly_degree m' = 0%Z /\ nugget m' = 0 /\
           (rbfs m' = [] \/ exists l r r', rbfs m = l ++ [r] /\ rbfs m' = l ++ [r'] /\ name r' = name r)
      else rbfs m' = rbfs m /\ ((List.length (write_model m) - 8 <= k)%nat -> poly_degree m' = poly_degree m)
  end.
Proof. exact model_prefixes. Qed.
Print Assumptions C04_model_prefixes.

(** C04: a prefix of an interpolant file is accepted exactly if only coefficients of the weights are missing; those that are there are right.
    Otherwise there is an exception, or a matrix is resized to a negative number of rows. *)
Theorem C04_interpolant_prefixes :
  forall d junk max_elems det_pos (t : interpolant) k,
  saveable_interpolant d max_elems det_pos t -> (k < List.length (write_interpolant t))%nat ->
  let start := (List.length (write_interpolant t) - 8 * nrows (weights t))%nat in
  if Nat.ltb k start
  then load_interpolant d junk max_elems det_pos (firstn k (write_interpolant t)) = UB \/
       exists e, load_interpolant d junk max_elems det_pos (firstn k (write_interpolant t)) = Throw e
  else exists cs, load_interpolant d junk max_elems det_pos (firstn k (write_interpolant t))
         = Ok (mk_interpolant (model_ t) (fitted t) (centers t) (grad_centers t) (ibbox t) (mk_dynmat (nrows (weights t)) cs)) /\
       List.length cs = nrows (weights t) /\ firstn ((k - start) / 8) cs = firstn ((k - start) / 8) (coeffs (weights t)).
Proof. exact interpolant_prefixes. Qed.
Print Assumptions C04_interpolant_prefixes.

Example C04_prefixes_ex :
  load_model 1 (fun _ => 77) 1000 (fun _ => true) (firstn 62 (write_model ex_model))
    = Ok (mk_model [mk_rbf (bytes_of_string "exp"%string) [one; 4611686018427387904] [one];
                    mk_rbf (bytes_of_string "bh3"%string) [one; 0] [77]] 0 0) /\
  load_model 1 (fun _ => 77) 1000 (fun _ => true) (firstn 30 (write_model ex_model)) = Throw ExRuntimeError /\
  load_interpolant 1 (fun _ => 77) 1000 (fun _ => true) (firstn 110 (write_interpolant ex_interpolant)) = UB.
Proof. vm_compute. auto. Qed.

(** C04: once the stream has failed, reading a model leaves its degree and nugget as they were, and drops its functions. *)
Theorem C04_failed_stream : forall d junk max_elems det_pos old s, failed s = true -> saveable_model d max_elems det_pos old ->
  read_model d junk max_elems det_pos old s = Ok (mk_model [] (poly_degree old) (nugget old), s).
Proof. exact failed_stream. Qed.
Print Assumptions C04_failed_stream.

(** C04: a function is made from as many parameters as were read: a polyharmonic function with fewer than two gets the defaults 1 and 0, the
    others must have two. *)
Theorem C04_parameters : forall d n,
  (In n poly_names -> make_rbf d n [] = Ok (mk_rbf n [one; zero] (identity d)) /\ (forall p, make_rbf d n [p] = Ok (mk_rbf n [p; zero] (identity d))) /\
    (forall p q, make_rbf d n [p; q] = Ok (mk_rbf n [p; q] (identity d))) /\
    (forall p q r l, make_rbf d n (p :: q :: r :: l) = Throw ExInvalidArgument)) /\
  (In n cov_names -> forall ps, make_rbf d n ps = if Nat.eqb (List.length ps) 2 then Ok (mk_rbf n ps (identity d)) else Throw ExInvalidArgument).
Proof. exact (fun d n => conj (polyharmonic_defaults d n) (fun H ps => covariance_parameters d n ps H)). Qed.
Print Assumptions C04_parameters.
