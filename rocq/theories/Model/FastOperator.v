From Coq Require Import Reals List Arith Bool.
From Verif Require Import Model.Outcome Model.LinAlg Model.Rbfs Model.Solver Model.Operator Model.Fmm.
Import ListNotations.
Local Open Scope R_scope.

(** Operator (include/polatory/interpolation/operator.hpp:20-127) with the evaluators it is made of (src/fmm): one operator, any
    number of calls of set_points and operator(). Numbers are real; a kernel value that is not a number counts as 0 here. *)

(** Points are vectors. *)
Definition vec := (nat -> R).
(** The points and the gradient points as lists of rows (operator.hpp:84-86). *)
Definition point_rows (n : nodes vec) : list vec := map (pt vec n) (seq 0 (Operator.mu vec n)).
(** Within operator.hpp:84-86. *)
Definition gradient_rows (n : nodes vec) : list vec := map (gpt vec n) (seq 0 (Operator.sigma vec n)).

(** A radial basis function: its class, its two parameters and its anisotropy matrix. *)
Record function := Function { f_kind : kind; f_p0 : R; f_p1 : R; f_a : nat -> nat -> R }.
(** The function of one part: direct_part and fast_part (cov_spheroidal3.hpp:118-128). *)
Definition with_kind (f : function) (k : kind) : function := Function k (f_p0 f) (f_p1 f) (f_a f).

(** The number of outputs kn per target (kernel.hpp:27, gradient_kernel.hpp:29, gradient_transpose_kernel.hpp:30, hessian_kernel.hpp:29). *)
Definition kernel_outputs (d : nat) (kk : kernel_kind) : nat := match kk with KValue | KGradient => 1%nat | KGradientT | KHessian => d end.
(** kernel.evaluate(p, q).at(km * i + j) of transformed points (kernel.hpp:43-52, gradient_kernel.hpp:45-61, gradient_transpose_kernel.hpp:47-63,
    hessian_kernel.hpp:46-65). *)
Definition kernel_number (d : nat) (f : function) (kk : kernel_kind) (x y : vec) (i j : nat) : R :=
  match kernel_entry d (f_kind f) (f_p0 f) (f_p1 f) (f_a f) kk i j (fun e => x e - y e) with Num r => r | _ => 0 end.
(** transform_point (point3d.hpp:36-40). *)
Definition transformed (d : nat) (f : function) (x : vec) : vec := mat_vec d (f_a f) x.

(** What an evaluator can do: FmmGenericEvaluatorBase and FmmGenericSymmetricEvaluatorBase (include/polatory/fmm/fmm_evaluator.hpp:17-41,
    fmm_symmetric_evaluator.hpp:15-37). set_points of a symmetric one is [m_source]; its [m_target] does nothing. *)
Record machine := Machine {
  m_state : Type;
  m_new : m_state;
  m_accuracy : m_state -> option R -> m_state;
  m_source : m_state -> list vec -> m_state;
  m_target : m_state -> list vec -> m_state;
  m_weights : m_state -> list R -> outcome m_state;
  m_evaluate : m_state -> outcome (m_state * (list R + exn)) }.

(** FmmGenericEvaluator::Impl of src/fmm/fmm_evaluator.hpp, see Model/Fmm.v, for one kernel. [rest] is what is not modelled of ScalFMM and of the standard
    library. *)
Definition kernel_env (d : nat) (f : function) (kk : kernel_kind) (rest : fenv vec) : fenv vec :=
  mk_fenv vec (kernel_inputs d kk) (kernel_outputs d kk) (kernel_number d f kk) (height_of vec rest) (sort_src vec rest) (sort_trg vec rest) (far vec rest)
    (far_sym vec rest) (shuffled vec rest) (stale vec rest) (fun _ => 0).
(** set_source_points and set_target_points transform the points (src/fmm/fmm_evaluator.hpp:120-157). *)
Definition fmm_machine (d : nat) (f : function) (kk : kernel_kind) (rest : fenv vec) : machine :=
  let E := kernel_env d f kk rest in
  Machine (Fmm.state vec) (new_state vec) (set_accuracy vec) (fun s pts => set_source_points vec E s (map (transformed d f) pts))
    (fun s pts => set_target_points vec s (map (transformed d f) pts)) (set_weights vec E) (evaluate vec E).
(** FmmGenericSymmetricEvaluator::Impl of src/fmm/fmm_symmetric_evaluator.hpp:104-122. *)
Definition fmm_symmetric_machine (d : nat) (f : function) (kk : kernel_kind) (rest : fenv vec) : machine :=
  let E := kernel_env d f kk rest in
  Machine (sym vec) (new_sym vec) (sym_set_accuracy vec) (fun s pts => sym_set_points vec E s (map (transformed d f) pts)) (fun s _ => s)
    (sym_set_weights vec E) (sym_evaluate vec E).

(** FmmGenericEvaluator::Impl of src/fmm/direct_evaluator.hpp and its symmetric version (direct_symmetric_evaluator.hpp). *)
Section Direct.
Variable d : nat.
Variable f : function.
Variable kk : kernel_kind.
(** KdTree::radius_search among points (kdtree.cpp:47-64), and the inputs of particles after a resize. *)
Variable near : list vec -> vec -> R -> list nat.
Variable fresh : nat -> list R.

(** The members (src/fmm/direct_evaluator.hpp:132-139); [None] for a null kdtree_. *)
Record direct_state := Direct { ds_points : list vec; ds_inputs : list (list R); ds_tree : option (list vec); ds_targets : list vec }.
(** set_source_points (src/fmm/direct_evaluator.hpp:74-90), set_points (direct_symmetric_evaluator.hpp:73-89). *)
Definition direct_source (s : direct_state) (pts : list vec) : direct_state :=
  let ps := map (transformed d f) pts in Direct ps (map fresh (seq 0 (length ps))) (Some ps) (ds_targets s).
(** set_target_points (src/fmm/direct_evaluator.hpp:92-105). *)
Definition direct_targets (s : direct_state) (pts : list vec) : direct_state :=
  Direct (ds_points s) (ds_inputs s) (ds_tree s) (map (transformed d f) pts).
(** set_weights (src/fmm/direct_evaluator.hpp:107-116, direct_symmetric_evaluator.hpp:91-100). *)
Definition direct_weights (s : direct_state) (w : list R) : outcome direct_state :=
  let km := kernel_inputs d kk in
  let* ins := map_out (fun k => elems w (map (fun i => km * k + i)%nat (seq 0 km))) (seq 0 (length (ds_points s))) in
  Ok (Direct (ds_points s) ins (ds_tree s) (ds_targets s)).
(** The inner loops (src/fmm/direct_evaluator.hpp:56-64) for output [i] at [x], added to [y]. *)
Definition add_input (x q : vec) (ins : list R) (i : nat) (y : R) : R :=
  fold_left (fun y j => y + nth j ins 0 * kernel_number d f kk x q i j) (seq 0 (kernel_inputs d kk)) y.
(** Within src/fmm/direct_evaluator.hpp:56-64. *)
Definition direct_output (found : list (vec * list R)) (x : vec) (i : nat) (y : R) : R :=
  fold_left (fun y q => add_input x (fst q) (snd q) i y) found y.
(** The radius (rbf_base.hpp:91-93 and the classes); the functions that use this evaluator have one. *)
Definition direct_radius : R := match support_radius (f_kind f) (f_p1 f) with Some r => r | None => 0 end.
(** evaluate (src/fmm/direct_evaluator.hpp:41-68): one target after the other, with no tree undefined. *)
Definition found_particles (s : direct_state) (keep : nat -> bool) (x : vec) : outcome (list (vec * list R)) :=
  let* tree := of_option (ds_tree s) in elems (combine (ds_points s) (ds_inputs s)) (filter keep (near tree x direct_radius)).
(** Within src/fmm/direct_evaluator.hpp:41-68. *)
Definition direct_evaluate (s : direct_state) : outcome (direct_state * (list R + exn)) :=
  let* ys := map_out (fun x =>
    let* qs := found_particles s (fun _ => true) x in
    Ok (map (fun i => direct_output qs x i 0) (seq 0 (kernel_outputs d kk)))) (ds_targets s) in
  Ok (s, inl (concat ys)).
(** evaluate with handle_self_interaction (direct_symmetric_evaluator.hpp:35-67, 103-119). *)
Definition direct_symmetric_evaluate (s : direct_state) : outcome (direct_state * (list R + exn)) :=
  let zero := fun _ : nat => 0 in
  let* ys := map_out (fun k =>
    let* q := elem (combine (ds_points s) (ds_inputs s)) k in
    let* qs := found_particles s (fun m => negb (Nat.eqb m k)) (fst q) in
    Ok (map (fun i => add_input zero zero (snd q) i (direct_output qs (fst q) i 0)) (seq 0 (kernel_outputs d kk)))) (seq 0 (length (ds_points s))) in
  Ok (s, inl (concat ys)).
(** set_accuracy does nothing (src/fmm/direct_evaluator.hpp:70-72). *)
Definition direct_machine : machine :=
  Machine direct_state (Direct [] [] None []) (fun s _ => s) direct_source direct_targets direct_weights direct_evaluate.
(** Within direct_symmetric_evaluator.hpp:35-119. *)
Definition direct_symmetric_machine : machine :=
  Machine direct_state (Direct [] [] None []) (fun s _ => s) direct_source (fun s _ => s) direct_weights direct_symmetric_evaluate.
End Direct.

(** [y += v] for a segment of a vector; the sizes must agree. *)
Definition add_segment (first len : nat) (v y : list R) : outcome (list R) :=
  if Nat.eqb (length v) len && (first + len <=? length y)%nat
  then Ok (map (fun r => if (first <=? r)%nat && (r <? first + len)%nat then nth r y 0 + nth (r - first) v 0 else nth r y 0) (seq 0 (length y)))
  else UB.

(** FmmGenericEvaluator::Impl of spheroidal_evaluator.hpp:9-63 and of spheroidal_symmetric_evaluator.hpp:9-56: the number of rows of the result, and
    the two parts. A symmetric one ([own]) takes the number of its points. *)
Record both_state (A B : Type) := Both { bs_count : nat; bs_direct : A; bs_fast : B }.
(** evaluate (spheroidal_evaluator.hpp:24-29). *)
Definition both_evaluate (kn : nat) (A B : machine) (s : both_state (m_state A) (m_state B)) : outcome (both_state (m_state A) (m_state B) * (list R + exn)) :=
  let n := (kn * bs_count _ _ s)%nat in
  let* ra := m_evaluate A (bs_direct _ _ s) in
  match ra with
  | (a, inr e) => Ok (Both _ _ (bs_count _ _ s) a (bs_fast _ _ s), inr e)
  | (a, inl ya) =>
      let* y := add_segment 0 n ya (repeat 0 n) in
      let* rb := m_evaluate B (bs_fast _ _ s) in
      match rb with
      | (b, inr e) => Ok (Both _ _ (bs_count _ _ s) a b, inr e)
      | (b, inl yb) => let* y := add_segment 0 n yb y in Ok (Both _ _ (bs_count _ _ s) a b, inl y)
      end
  end.
(** Within spheroidal_evaluator.hpp:31-53. *)
Definition both_machine (own : bool) (kn : nat) (A B : machine) : machine :=
  Machine (both_state (m_state A) (m_state B)) (Both _ _ 0%nat (m_new A) (m_new B))
    (fun s a => Both _ _ (bs_count _ _ s) (m_accuracy A (bs_direct _ _ s) a) (m_accuracy B (bs_fast _ _ s) a))
    (fun s pts => Both _ _ (if own then length pts else bs_count _ _ s) (m_source A (bs_direct _ _ s) pts) (m_source B (bs_fast _ _ s) pts))
    (fun s pts => Both _ _ (if own then bs_count _ _ s else length pts) (m_target A (bs_direct _ _ s) pts) (m_target B (bs_fast _ _ s) pts))
    (fun s w => let* a := m_weights A (bs_direct _ _ s) w in let* b := m_weights B (bs_fast _ _ s) w in Ok (Both _ _ (bs_count _ _ s) a b))
    (both_evaluate kn A B).

(** ** The evaluators of a function *)

Section Operator.
Variable d : nat.
Variable nugget : R.
Variable accuracy grad_accuracy : option R.
Variable rest : function -> kernel_kind -> bool -> fenv vec.
Variable near : list vec -> vec -> R -> list nat.
Variable fresh : nat -> list R.
(** The number of polynomials and their values at the nodes (monomial_basis.hpp, see Model/MonomialBasis.v). *)
Variable l : nat.
Variable basis : nodes vec -> nat -> nat -> R.

(** The implementation of a class: the headers included in src/fmm/impl (cov_cubic.cpp:1-12, cov_spherical.cpp:1-12, cov_spheroidal3.cpp:1-16,
    cov_spheroidal3_direct_part.cpp:1-12, cov_exponential.cpp:1-12 and the others alike). *)
Definition make_evaluator (symmetric : bool) (f : function) (kk : kernel_kind) : machine :=
  let direct := fun f => if symmetric then direct_symmetric_machine d f kk near fresh else direct_machine d f kk near fresh in
  let fast := fun f => if symmetric then fmm_symmetric_machine d f kk (rest f kk true) else fmm_machine d f kk (rest f kk false) in
  match f_kind f with
  | Cub | Sph | Sp _ DirectPart => direct f
  | Sp sp Full => both_machine symmetric (kernel_outputs d kk) (direct (with_kind f (Sp sp DirectPart))) (fast (with_kind f (Sp sp FastPart)))
  | _ => fast f
  end.

(** An evaluator with its state. *)
Record object := Object { o_machine : machine; o_state : m_state o_machine }.
(** Helper without code of its own. *)
Definition create (M : machine) : object := Object M (m_new M).
(** Helper without code of its own. *)
Definition change (o : object) (g : forall M, m_state M -> m_state M) : object := Object (o_machine o) (g (o_machine o) (o_state o)).
(** Helper without code of its own. *)
Definition load (o : object) (w : list R) : outcome object := let* s := m_weights (o_machine o) (o_state o) w in Ok (Object (o_machine o) s).
(** Elements of a_, f_, ft_ and h_ (operator.hpp:121-124). *)
Record four := Four { oa : object; of : object; oft : object; oh : object }.
(** The members that change (operator.hpp:118-119, 121-126). *)
Record operator_state := OperatorState { os_nodes : nodes vec; os_fours : list four }.

(** The constructor (operator.hpp:38-54). *)
Definition new_operator (fs : list function) : operator_state :=
  OperatorState (Nodes vec 0 0 (fun _ _ => 0) (fun _ _ => 0))
    (map (fun f => Four (create (make_evaluator true f KValue)) (create (make_evaluator false f KGradient))
                        (create (make_evaluator false f KGradientT)) (create (make_evaluator true f KHessian))) fs).
(** set_points (operator.hpp:84-109). *)
Definition set_points (s : operator_state) (n : nodes vec) : operator_state :=
  let count := length (os_fours s) in
  let points := point_rows n in let grad_points := gradient_rows n in
  let acc := option_map (fun a => share a (Operator.sigma vec n) count) accuracy in
  let gacc := option_map (fun a => share a (Operator.sigma vec n) count) grad_accuracy in
  let source := fun pts M st => m_source M st pts in let target := fun pts M st => m_target M st pts in
  let accurate := fun a M st => m_accuracy M st a in
  OperatorState n (map (fun q => Four
    (change (change (oa q) (source points)) (accurate acc))
    (change (change (change (of q) (source grad_points)) (target points)) (accurate acc))
    (change (change (change (oft q) (source points)) (target grad_points)) (accurate gacc))
    (change (change (oh q) (source grad_points)) (accurate gacc))) (os_fours s)).

(** y.head(mu_) += a_.at(i)->evaluate() and the like (operator.hpp:69-72). *)
Definition add_evaluated (o : object) (first len : nat) (y : list R) : outcome (object * (list R + exn)) :=
  let* r := m_evaluate (o_machine o) (o_state o) in
  match r with
  | (s, inr e) => Ok (Object (o_machine o) s, inr e)
  | (s, inl v) => let* y := add_segment first len v y in Ok (Object (o_machine o) s, inl y)
  end.
(** One pass of the loop (operator.hpp:63-73); an exception leaves it at once. *)
Definition apply_four (n : nodes vec) (w : list R) (q : four) (y : list R) : outcome (four * (list R + exn)) :=
  let m := Operator.mu vec n in let k := (d * Operator.sigma vec n)%nat in
  let* a := load (oa q) (firstn m w) in
  let* f := load (of q) (firstn k (skipn m w)) in
  let* ft := load (oft q) (firstn m w) in
  let* h := load (oh q) (firstn k (skipn m w)) in
  let* r := add_evaluated a 0 m y in
  match r with
  | (a, inr e) => Ok (Four a f ft h, inr e)
  | (a, inl y) =>
      let* r := add_evaluated f 0 m y in
      match r with
      | (f, inr e) => Ok (Four a f ft h, inr e)
      | (f, inl y) =>
          let* r := add_evaluated ft m k y in
          match r with
          | (ft, inr e) => Ok (Four a f ft h, inr e)
          | (ft, inl y) => let* r := add_evaluated h m k y in Ok (Four a f ft (fst r), snd r)
          end
      end
  end.
(** Within operator.hpp:63-73. *)
Fixpoint apply_fours (n : nodes vec) (w : list R) (qs : list four) (y : list R) : outcome (list four * (list R + exn)) :=
  match qs with
  | [] => Ok ([], inl y)
  | q :: qs' =>
      let* r := apply_four n w q y in
      match r with
      | (q, inr e) => Ok (q :: qs', inr e)
      | (q, inl y) => let* r := apply_fours n w qs' y in Ok (q :: fst r, snd r)
      end
  end.
(** operator() (operator.hpp:56-82); the weights must have the right size. *)
Definition call (s : operator_state) (w : list R) : outcome (operator_state * (list R + exn)) :=
  let n := os_nodes s in let m := Operator.mu vec n in let k := size vec d n in
  if negb (Nat.eqb (length w) (k + l)) then UB
  else
    let* r := apply_fours n w (os_fours s) (map (fun r => if (r <? m)%nat then nth r w 0 * nugget else 0) (seq 0 (k + l))) in
    let s' := OperatorState n (fst r) in
    match snd r with
    | inr e => Ok (s', inr e)
    | inl y =>
        if Nat.eqb l 0 then Ok (s', inl y)
        else
          let p := basis n in
          Ok (s', inl (map (fun r => if (r <? k)%nat then nth r y 0 + mat_vec l p (fun j => nth (k + j) w 0) r
                                     else nth r y 0 + rsum k (fun i => p i (r - k)%nat * nth i w 0)) (seq 0 (k + l))))
    end.

(** Any use of an operator. *)
Inductive use := SetNodes (n : nodes vec) | Call (w : list R).
(** Helper without code of its own. *)
Fixpoint used (s : operator_state) (us : list use) : outcome operator_state :=
  match us with
  | [] => Ok s
  | SetNodes n :: us' => used (set_points s n) us'
  | Call w :: us' => let* r := call s w in used (fst r) us'
  end.
(** The operator as a function of the weights; 0 where it gives nothing. *)
Definition applied (s : operator_state) (w : nat -> R) (r : nat) : R :=
  match call s (map w (seq 0 (size vec d (os_nodes s) + l))) with Ok (_, inl y) => nth r y 0 | _ => 0 end.
End Operator.
