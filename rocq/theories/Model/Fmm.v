From Coq Require Import List Arith NArith Reals Bool.
From Verif Require Import Model.Outcome Model.Solver.
Import ListNotations.

(** * The fast multipole evaluators (src/fmm)

    Numbers are reals; only the accuracy may be infinite. What ScalFMM computes from its trees, how it sorts
    particles, and the tree height are arbitrary functions. The interpolator cache of fmm_evaluator.hpp:249-251
    (an LruCache, see Model/LruCache.v) is left out: an interpolator is determined by its key, because the
    kernel and the box never change. *)

(** InterpolatorConfiguration (interpolator_configuration.hpp:8-21); kClassic is -1 there and [None] here. *)
Record config := Config { c_height : nat; c_order : nat; c_d : option nat }.
(** Within interpolator_configuration.hpp:8-21. *)
Definition no_config : config := Config 0 0 (Some 0).
(** Within interpolator_configuration.hpp:8-21. *)
Definition config_eqb (a b : config) : bool :=
  (c_height a =? c_height b) && (c_order a =? c_order b) &&
  match c_d a, c_d b with Some x, Some y => x =? y | None, None => true | _, _ => false end.

Section Fmm.
Variable P : Type.

(** A source particle: position, inputs, variables. A target particle has no inputs. *)
Record particle := Particle { p_pos : P; p_in : list R; p_id : nat }.
(** Within src/fmm/fmm_evaluator.hpp:47-50. *)
Record target := Target { t_pos : P; t_id : nat }.

(** Within src/fmm/fmm_evaluator.hpp:272-292. *)
Record fenv := mk_fenv {
  km : nat; kn : nat;                               (* inputs per source, outputs per target *)
  kernel : P -> P -> nat -> nat -> R;               (* kernel.evaluate(p, q).at(km * i + j) *)
  height_of : nat -> nat;                           (* fmm_tree_height (utility.hpp:12-16) *)
  sort_src : nat -> list particle -> list particle; (* sort_container at a level *)
  sort_trg : nat -> list target -> list target;
  (* the far and near field: from the sources at p2m and the sources at p2p, output i at a point *)
  far : config -> list particle -> list particle -> P -> nat -> R;
  (* the same for the symmetric evaluator, output i at the k-th particle; self-interaction left out *)
  far_sym : config -> list particle -> nat -> nat -> R;
  shuffled : nat -> list nat;                       (* std::shuffle of 0 .. n-1 *)
  stale : nat -> list R;                            (* inputs of a particle after resize() *)
  origin : P                                        (* the zero point of handle_self_interaction *)
}.
Variable E : fenv.

(** One pass of the inner loops of full_direct (full_direct.hpp:21-26, 44-49): the contribution of [q] to
    output [i] at [x]. *)
Definition contribution (x : P) (q : particle) (i : nat) : R :=
  fold_left (fun acc j => (acc + nth j (p_in q) 0 * E.(kernel) x (p_pos q) i j)%R) (seq 0 E.(km)) 0%R.
(** full_direct for one target (full_direct.hpp:31-52). *)
Definition direct_at (src : list particle) (x : P) (i : nat) : R :=
  fold_left (fun acc q => (acc + contribution x q i)%R) src 0%R.
(** full_direct for one particle of the symmetric case (full_direct.hpp:7-29): the particle itself is skipped. *)
Definition direct_except (ps : list particle) (k : nat) (x : P) (i : nat) : R :=
  fold_left (fun acc m => if m =? k then acc else
    match nth_error ps m with Some q => (acc + contribution x q i)%R | None => acc end) (seq 0 (length ps)) 0%R.

(** ** FmmAccuracyEstimator (fmm_accuracy_estimator.hpp) *)

(** fmm_accuracy_estimator.hpp:108-111. *)
Definition candidates (h : nat) : list config :=
  flat_map (fun order => if 12 <=? order then map (fun d => Config h order (Some d)) [7; 8; 9] else [Config h order None])
    [8; 10; 12; 14; 16; 18; 20].
(** kMaxTargetSize and fmm_accuracy_estimator.hpp:86-105: targets at the first source points in shuffled order. *)
Definition sample (src : list particle) : outcome (list P) :=
  let n := length src in
  let* qs := elems src (firstn (N.to_nat (N.min (N.of_nat n) 10000)) (E.(shuffled) n)) in
  Ok (map p_pos qs).
(** evaluate (fmm_accuracy_estimator.hpp:123-170) and absolute_error (fmm_accuracy_estimator.hpp:113): the largest difference over all sampled outputs. *)
Definition error (src : list particle) (c : config) (xs : list P) : R :=
  fold_left (fun m x => fold_left (fun m i => Rmax m (Rabs (E.(far) c src src x i - direct_at src x i)%R)) (seq 0 E.(kn)) m) xs 0%R.
(** Within fmm_accuracy_estimator.hpp:123-170, fmm_accuracy_estimator.hpp:113. *)
Fixpoint first_good (src : list particle) (acc : R) (xs : list P) (cs : list config) : outcome config :=
  match cs with
  | [] => Throw ExRuntimeError
  | c :: cs' => if Rle_dec (error src c xs) acc then Ok c else first_good src acc xs cs'
  end.
(** find_best_configuration (fmm_accuracy_estimator.hpp:74-121); an infinite accuracy is [None]. *)
Definition search (acc : option R) (src : list particle) (h : nat) : outcome config :=
  match acc with
  | None => Ok (Config h 6 None)
  | Some a =>
      if Req_EM_T a 0 then Ok (Config h 12 (Some 8))
      else let* xs := sample src in first_good src a xs (candidates h)
  end.

(** ** FmmGenericEvaluator::Impl (fmm_evaluator.hpp:32-293) *)

(** A source tree: its particles, and those from which its multipoles were computed. *)
Record stree := Stree { st_particles : list particle; st_multipoles : option (list particle) }.
(** Within src/fmm/fmm_evaluator.hpp:272-292. *)
Record state := State {
  accuracy : option R; src : list particle; trg : list target; src_level : nat; trg_level : nat; dirty : bool;
  cfg : config; operator : option config; src_tree : option stree; trg_tree : option (list target);
  best : nat -> option config }.
(** Helper without code of its own. *)
Definition new_state : state :=
  State None [] [] 0 0 false no_config None None None (fun _ => None).

(** set_accuracy (fmm_evaluator.hpp:114-118), set_source_points (120-138), set_target_points (140-157). *)
Definition set_accuracy (s : state) (a : option R) : state :=
  State a (src s) (trg s) (src_level s) (trg_level s) (dirty s) (cfg s) (operator s) (src_tree s) (trg_tree s) (fun _ => None).
(** Helper without code of its own. *)
Fixpoint numbered {A B : Type} (f : A -> nat -> B) (k : nat) (l : list A) : list B :=
  match l with [] => [] | x :: l' => f x k :: numbered f (S k) l' end.
(** set_source_points (fmm_evaluator.hpp:120-138). *)
Definition set_source_points (s : state) (pts : list P) : state :=
  State (accuracy s) (numbered (fun x k => Particle x (E.(stale) k) k) 0 pts) (trg s) 0 (trg_level s) (dirty s) (cfg s)
        (operator s) None (trg_tree s) (fun _ => None).
(** set_target_points (fmm_evaluator.hpp:140-157). *)
Definition set_target_points (s : state) (pts : list P) : state :=
  State (accuracy s) (src s) (numbered (fun x k => Target x k) 0 pts) (src_level s) 0 (dirty s) (cfg s) (operator s) (src_tree s) None (best s).
(** set_weights (fmm_evaluator.hpp:159-185). *)
Definition with_inputs (w : list R) (q : particle) : outcome particle :=
  let* ins := elems w (map (fun i => E.(km) * p_id q + i) (seq 0 E.(km))) in Ok (Particle (p_pos q) ins (p_id q)).
(** Helper without code of its own. *)
Fixpoint map_out {A B : Type} (f : A -> outcome B) (l : list A) : outcome (list B) :=
  match l with [] => Ok [] | x :: l' => let* y := f x in let* ys := map_out f l' in Ok (y :: ys) end.
(** set_weights (fmm_evaluator.hpp:159-185). *)
Definition set_weights (s : state) (w : list R) : outcome state :=
  match src_tree s with
  | None =>
      let* ps := map_out (with_inputs w) (src s) in
      Ok (State (accuracy s) ps (trg s) (src_level s) (trg_level s) (dirty s) (cfg s) (operator s) None (trg_tree s) (best s))
  | Some t =>
      let* ps := map_out (with_inputs w) (st_particles t) in
      Ok (State (accuracy s) (src s) (trg s) (src_level s) (trg_level s) true (cfg s) (operator s)
                (Some (Stree ps (st_multipoles t))) (trg_tree s) (best s))
  end.

(** find_best_configuration (fmm_evaluator.hpp:188-197). try_emplace puts an empty configuration into the map before
    the search, which may throw. *)
Definition upd_nat {A : Type} (f : nat -> A) (k : nat) (a : A) : nat -> A := fun m => if m =? k then a else f m.
(** Within fmm_evaluator.hpp:188-197. *)
Definition with_best (s : state) (b : nat -> option config) : state :=
  State (accuracy s) (src s) (trg s) (src_level s) (trg_level s) (dirty s) (cfg s) (operator s) (src_tree s) (trg_tree s) b.
(** Within fmm_evaluator.hpp:188-197. *)
Definition find_best (s : state) (h : nat) : outcome (state * (config + exn)) :=
  match best s h with
  | Some c => Ok (s, inl c)
  | None =>
      match search (accuracy s) (src s) h with
      | Ok c => Ok (with_best s (upd_nat (best s) h (Some c)), inl c)
      | Throw e => Ok (with_best s (upd_nat (best s) h (Some no_config)), inr e)
      | UB => UB
      end
  end.

(** prepare (fmm_evaluator.hpp:226-270). An interpolator of order 0 is taken as undefined. *)
Definition small (s : state) : bool := (N.of_nat (length (src s)) * N.of_nat (length (trg s)) <? 1048576)%N.
(** Within fmm_evaluator.hpp:226-270. *)
Definition prepare (s : state) : outcome (state * option exn) :=
  if small s then
    Ok (State (accuracy s) (src s) (trg s) (src_level s) (trg_level s) (dirty s) no_config None None None (best s), None)
  else
    let h := E.(height_of) (Nat.max (length (src s)) (length (trg s))) in
    let s := if src_level s <? h - 1
             then State (accuracy s) (E.(sort_src) (h - 1) (src s)) (trg s) (h - 1) (trg_level s) (dirty s) (cfg s) (operator s) (src_tree s) (trg_tree s) (best s)
             else s in
    let s := if trg_level s <? h - 1
             then State (accuracy s) (src s) (E.(sort_trg) (h - 1) (trg s)) (src_level s) (h - 1) (dirty s) (cfg s) (operator s) (src_tree s) (trg_tree s) (best s)
             else s in
    let* r := find_best s h in
    match r with
    | (s, inr e) => Ok (s, Some e)
    | (s, inl c) =>
        if negb (config_eqb c (cfg s)) && (c_order c =? 0) then UB else
        let s := if config_eqb c (cfg s) then s
                 else State (accuracy s) (src s) (trg s) (src_level s) (trg_level s) (dirty s) c (Some c) None None (best s) in
        let s := match src_tree s with
                 | Some _ => s
                 | None => State (accuracy s) (src s) (trg s) (src_level s) (trg_level s) true (cfg s) (operator s) (Some (Stree (src s) None)) (trg_tree s) (best s)
                 end in
        let s := match trg_tree s with
                 | Some _ => s
                 | None => State (accuracy s) (src s) (trg s) (src_level s) (trg_level s) (dirty s) (cfg s) (operator s) (src_tree s) (Some (trg s)) (best s)
                 end in
        Ok (s, None)
    end.

(** potentials (fmm_evaluator.hpp:199-224): one write per target and output into a zero vector. *)
Definition write (v : list R) (k : nat) (x : R) : outcome (list R) :=
  if k <? length v then Ok (firstn k v ++ x :: skipn (S k) v) else UB.
(** Within fmm_evaluator.hpp:199-224. *)
Fixpoint writes (v : list R) (ws : list (nat * R)) : outcome (list R) :=
  match ws with [] => Ok v | (k, x) :: ws' => let* v' := write v k x in writes v' ws' end.
(** potentials (fmm_evaluator.hpp:199-224). *)
Definition potentials (n : nat) (ids : list nat) (out : nat -> nat -> R) : outcome (list R) :=
  writes (repeat 0%R (E.(kn) * n))
    (concat (numbered (fun id k => map (fun i => (E.(kn) * id + i, out k i)) (seq 0 E.(kn))) 0 ids)).

(** evaluate (fmm_evaluator.hpp:77-112). A null pointer is undefined. *)
Definition release (s : state) (d : bool) : state :=
  State (accuracy s) (src s) (trg s) (src_level s) (trg_level s) d (cfg s) (operator s) None None (best s).
(** Within fmm_evaluator.hpp:77-112. *)
Definition out_at (f : P -> nat -> R) (ts : list target) (k i : nat) : R :=
  match nth_error ts k with Some t => f (t_pos t) i | None => 0%R end.
(** evaluate (fmm_evaluator.hpp:77-112). *)
Definition evaluate (s : state) : outcome (state * (list R + exn)) :=
  let* r := prepare s in
  match r with
  | (s, Some e) => Ok (s, inr e)
  | (s, None) =>
      if 0 <? c_height (cfg s) then
        match src_tree s, trg_tree s, operator s with
        | Some st, Some ts, Some c =>
            let* m := if dirty s then Ok (st_particles st) else of_option (st_multipoles st) in
            let* y := potentials (length (trg s)) (map t_id ts) (out_at (E.(far) c m (st_particles st)) ts) in
            Ok (release s false, inl y)
        | _, _, _ => UB
        end
      else
        let* y := potentials (length (trg s)) (map t_id (trg s)) (out_at (direct_at (src s)) (trg s)) in
        Ok (release s (dirty s), inl y)
  end.

(** Histories of calls. *)
Inductive op := SetAccuracy (a : option R) | SetSource (pts : list P) | SetTarget (pts : list P) | SetWeights (w : list R) | Evaluate.
(** Helper without code of its own. *)
Definition step (s : state) (o : op) : outcome (state * option (list R + exn)) :=
  match o with
  | SetAccuracy a => Ok (set_accuracy s a, None)
  | SetSource pts => Ok (set_source_points s pts, None)
  | SetTarget pts => Ok (set_target_points s pts, None)
  | SetWeights w => let* s' := set_weights s w in Ok (s', None)
  | Evaluate => let* r := evaluate s in Ok (fst r, Some (snd r))
  end.
(** Helper without code of its own. *)
Fixpoint run (s : state) (os : list op) : outcome (state * list (option (list R + exn))) :=
  match os with
  | [] => Ok (s, [])
  | o :: os' => let* r := step s o in let* r' := run (fst r) os' in Ok (fst r', snd r :: snd r')
  end.

(** ** FmmGenericSymmetricEvaluator::Impl (fmm_symmetric_evaluator.hpp:30-270) *)

Record sym := Sym { y_accuracy : option R; y_src : list particle; y_level : nat; y_cfg : config; y_operator : option config;
                    y_tree : option (list particle); y_best : nat -> option config }.
(** Within fmm_symmetric_evaluator.hpp:30-270. *)
Definition new_sym : sym := Sym None [] 0 no_config None None (fun _ => None).
(** set_accuracy (fmm_symmetric_evaluator.hpp:98-102), set_points (104-122), set_weights (124-149), find_best_configuration (152-161). *)
Definition sym_set_accuracy (s : sym) (a : option R) : sym :=
  Sym a (y_src s) (y_level s) (y_cfg s) (y_operator s) (y_tree s) (fun _ => None).
(** Within fmm_symmetric_evaluator.hpp:98-102. *)
Definition sym_set_points (s : sym) (pts : list P) : sym :=
  Sym (y_accuracy s) (numbered (fun x k => Particle x (E.(stale) k) k) 0 pts) 0 (y_cfg s) (y_operator s) None (fun _ => None).
(** Within fmm_symmetric_evaluator.hpp:98-102. *)
Definition sym_set_weights (s : sym) (w : list R) : outcome sym :=
  match y_tree s with
  | None => let* ps := map_out (with_inputs w) (y_src s) in Ok (Sym (y_accuracy s) ps (y_level s) (y_cfg s) (y_operator s) None (y_best s))
  | Some t => let* ps := map_out (with_inputs w) t in Ok (Sym (y_accuracy s) (y_src s) (y_level s) (y_cfg s) (y_operator s) (Some ps) (y_best s))
  end.
(** Within fmm_symmetric_evaluator.hpp:98-102. *)
Definition sym_with_best (s : sym) (b : nat -> option config) : sym :=
  Sym (y_accuracy s) (y_src s) (y_level s) (y_cfg s) (y_operator s) (y_tree s) b.
(** Within fmm_symmetric_evaluator.hpp:98-102. *)
Definition sym_find_best (s : sym) (h : nat) : outcome (sym * (config + exn)) :=
  match y_best s h with
  | Some c => Ok (s, inl c)
  | None =>
      match search (y_accuracy s) (y_src s) h with
      | Ok c => Ok (sym_with_best s (upd_nat (y_best s) h (Some c)), inl c)
      | Throw e => Ok (sym_with_best s (upd_nat (y_best s) h (Some no_config)), inr e)
      | UB => UB
      end
  end.
(** prepare (fmm_symmetric_evaluator.hpp:222-252). *)
Definition sym_prepare (s : sym) : outcome (sym * option exn) :=
  if (N.of_nat (length (y_src s)) <? 1024)%N then
    Ok (Sym (y_accuracy s) (y_src s) (y_level s) no_config None None (y_best s), None)
  else
    let h := E.(height_of) (length (y_src s)) in
    let s := if y_level s <? h - 1
             then Sym (y_accuracy s) (E.(sort_src) (h - 1) (y_src s)) (h - 1) (y_cfg s) (y_operator s) (y_tree s) (y_best s)
             else s in
    let* r := sym_find_best s h in
    match r with
    | (s, inr e) => Ok (s, Some e)
    | (s, inl c) =>
        if negb (config_eqb c (y_cfg s)) && (c_order c =? 0) then UB else
        let s := if config_eqb c (y_cfg s) then s
                 else Sym (y_accuracy s) (y_src s) (y_level s) c (Some c) None (y_best s) in
        let s := match y_tree s with
                 | Some _ => s
                 | None => Sym (y_accuracy s) (y_src s) (y_level s) (y_cfg s) (y_operator s) (Some (y_src s)) (y_best s)
                 end in
        Ok (s, None)
    end.
(** evaluate (fmm_symmetric_evaluator.hpp:66-96) with handle_self_interaction (fmm_symmetric_evaluator.hpp:163-193) and potentials (fmm_symmetric_evaluator.hpp:195-220). *)
Definition self_term (ps : list particle) (k i : nat) : R :=
  match nth_error ps k with
  | Some q => fold_left (fun acc j => (acc + nth j (p_in q) 0 * E.(kernel) E.(origin) E.(origin) i j)%R) (seq 0 E.(km)) 0%R
  | None => 0%R
  end.
(** Within fmm_symmetric_evaluator.hpp:66-96, fmm_symmetric_evaluator.hpp:163-193, fmm_symmetric_evaluator.hpp:195-220. *)
Definition direct_sym (ps : list particle) (k i : nat) : R :=
  match nth_error ps k with Some p => direct_except ps k (p_pos p) i | None => 0%R end.
(** Within fmm_symmetric_evaluator.hpp:66-96, fmm_symmetric_evaluator.hpp:163-193, fmm_symmetric_evaluator.hpp:195-220. *)
Definition sym_evaluate (s : sym) : outcome (sym * (list R + exn)) :=
  let* r := sym_prepare s in
  match r with
  | (s, Some e) => Ok (s, inr e)
  | (s, None) =>
      let release := Sym (y_accuracy s) (y_src s) (y_level s) (y_cfg s) (y_operator s) None (y_best s) in
      if 0 <? c_height (y_cfg s) then
        match y_tree s, y_operator s with
        | Some t, Some c =>
            let* y := potentials (length (y_src s)) (map p_id t) (fun k i => (E.(far_sym) c t k i + self_term t k i)%R) in
            Ok (release, inl y)
        | _, _ => UB
        end
      else
        let* y := potentials (length (y_src s)) (map p_id (y_src s)) (fun k i => (direct_sym (y_src s) k i + self_term (y_src s) k i)%R) in
        Ok (release, inl y)
  end.
(** Helper without code of its own. *)
Inductive sym_op := SymSetAccuracy (a : option R) | SymSetPoints (pts : list P) | SymSetWeights (w : list R) | SymEvaluate.
(** Helper without code of its own. *)
Definition sym_step (s : sym) (o : sym_op) : outcome (sym * option (list R + exn)) :=
  match o with
  | SymSetAccuracy a => Ok (sym_set_accuracy s a, None)
  | SymSetPoints pts => Ok (sym_set_points s pts, None)
  | SymSetWeights w => let* s' := sym_set_weights s w in Ok (s', None)
  | SymEvaluate => let* r := sym_evaluate s in Ok (fst r, Some (snd r))
  end.
(** Helper without code of its own. *)
Fixpoint sym_run (s : sym) (os : list sym_op) : outcome (sym * list (option (list R + exn))) :=
  match os with
  | [] => Ok (s, [])
  | o :: os' => let* r := sym_step s o in let* r' := sym_run (fst r) os' in Ok (fst r', snd r :: snd r')
  end.

End Fmm.
Arguments Particle {P} _ _ _. Arguments p_pos {P} _. Arguments p_in {P} _. Arguments p_id {P} _.
Arguments Target {P} _ _. Arguments t_pos {P} _. Arguments t_id {P} _.
Arguments SetAccuracy {P} _. Arguments SetSource {P} _. Arguments SetTarget {P} _. Arguments SetWeights {P} _. Arguments Evaluate {P}.
Arguments SymSetAccuracy {P} _. Arguments SymSetPoints {P} _. Arguments SymSetWeights {P} _. Arguments SymEvaluate {P}.

(** ** Accuracy shares (include/polatory/interpolation/evaluator.hpp:91-110, operator.hpp:84-104,
    symmetric_evaluator.hpp:73-93) *)

Definition share (acc : R) (sigma n_rbfs : nat) : R :=
  ((if 0 <? sigma then acc / 2 else acc) / INR n_rbfs)%R.
(** One entry of evaluate() (evaluator.hpp:65-81, symmetric_evaluator.hpp:55-71): [a i] and [f i] are what
    the evaluators of RBF i return there, [p] is the polynomial term. *)
Definition total (n_rbfs : nat) (a f : nat -> R) (p : R) : R :=
  (fold_left (fun y i => y + a i + f i) (seq 0 n_rbfs) 0 + p)%R.
