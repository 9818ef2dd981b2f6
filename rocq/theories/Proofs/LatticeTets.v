From Coq Require Import List Arith ZArith Reals Bool Lia Permutation.
From Verif Require Import Model.Outcome Model.MeshDefects Model.Solver Model.Lattice Proofs.LatticeVertices Spec.Lattice.
Import ListNotations.

(** ** Tetrahedra relative to their first node *)

Definition o3 : lc := (0, 0, 0)%Z.
Definition lc_sub (a b : lc) : lc := let '(a0, a1, a2) := a in let '(b0, b1, b2) := b in (a0 - b0, a1 - b1, a2 - b2)%Z.
Definition tnodes (i : nat) : list lc :=
  let '(e0, e1, e2) := nth i edge_indices (0, 0, 0) in [o3; neighbor o3 e0; neighbor o3 e1; neighbor o3 e2].
Definition tedges (i : nat) : list E :=
  let '(e0, e1, e2) := nth i edge_indices (0, 0, 0) in
  let '(f0, f1, f2) := nth i outer_edge_indices (0, 0, 0) in
  [eid o3 e0; eid o3 e1; eid o3 e2; eid (neighbor o3 e0) f0; eid (neighbor o3 e1) f1; eid (neighbor o3 e2) f2].
Definition faceE := (E * E * E)%type.
Definition noE : E := (o3, 0).
Definition rel_faces (i : nat) (b : list bool) : list faceE :=
  match b with
  | [s; s0; s1; s2] => map (fun f => let '(p, q, r) := f in (nth p (tedges i) noE, nth q (tedges i) noE, nth r (tedges i) noE))
                           (face_table s s0 s1 s2)
  | _ => []
  end.
Definition sidesE (f : faceE) : list (E * E) := let '(a, b, c) := f in [(a, b); (b, c); (c, a)].
Definition rsides (i : nat) (b : list bool) : list (E * E) := flat_map sidesE (rel_faces i b).

Definition shift (x : lc) (p : E) : E := (lc_add x (fst p), snd p).
Definition shift2 (x : lc) (s : E * E) : E * E := (shift x (fst s), shift x (snd s)).
Definition shift3 (x : lc) (f : faceE) : faceE := let '(a, b, c) := f in (shift x a, shift x b, shift x c).

Definition nodes_at (x : lc) (i : nat) : list lc := map (lc_add x) (tnodes i).
Definition signs (s : lc -> bool) (x : lc) (i : nat) : list bool := map s (nodes_at x i).
Definition tet_faces (s : lc -> bool) (x : lc) (i : nat) : list faceE := map (shift3 x) (rel_faces i (signs s x i)).
Definition tet_sides (s : lc -> bool) (x : lc) (i : nat) : list (E * E) := flat_map sidesE (tet_faces s x i).
(** The tetrahedron has the ends of the edge. *)
Definition holds (x : lc) (i : nat) (p : E) : Prop := In (fst p) (nodes_at x i) /\ In (neighbor (fst p) (snd p)) (nodes_at x i).

Lemma lc_add_assoc : forall a b c, lc_add (lc_add a b) c = lc_add a (lc_add b c).
Proof. intros [[? ?] ?] [[? ?] ?] [[? ?] ?]. lcs. Qed.
Lemma lc_add_sub : forall a b, lc_add a (lc_sub b a) = b.
Proof. intros [[? ?] ?] [[? ?] ?]. lcs. Qed.
Lemma lc_add_o3 : forall a, lc_add a o3 = a.
Proof. intros [[? ?] ?]. lcs. Qed.
Lemma lc_add_cancel : forall x a b, lc_add x a = lc_add x b -> a = b.
Proof. intros [[? ?] ?] [[? ?] ?] [[? ?] ?] H. cbn in H. injection H. intros. lcs. Qed.
Lemma sub_of_add : forall x y a b, lc_add x a = lc_add y b -> y = lc_add x (lc_sub a b).
Proof. intros [[? ?] ?] [[? ?] ?] [[? ?] ?] [[? ?] ?] H. cbn in *. injection H. intros. lcs. Qed.
Lemma neighbor_shift : forall x a e, neighbor (lc_add x a) e = lc_add x (neighbor a e).
Proof. intros x a e. apply lc_add_assoc. Qed.
Lemma eid_shift : forall x a e, eid (lc_add x a) e = shift x (eid a e).
Proof. intros x a e. unfold eid, shift. destruct (e <? 7); auto. rewrite neighbor_shift. auto. Qed.
Lemma shift_shift : forall x y p, shift (lc_add x y) p = shift x (shift y p).
Proof. intros x y [a d]. unfold shift. cbn. rewrite lc_add_assoc. auto. Qed.
Lemma shift_o3 : forall x p, fst p = o3 -> shift x p = (x, snd p).
Proof. intros x [a d] H. cbn in H. subst a. unfold shift. cbn [fst snd]. rewrite lc_add_o3. auto. Qed.
Lemma shift_cancel : forall x p q, shift x p = shift x q -> p = q.
Proof. intros x [a d] [b e] H. unfold shift in H. cbn in H. injection H as H1 H2. apply lc_add_cancel in H1. congruence. Qed.

Definition E_eqb (p q : E) : bool := lc_eqb (fst p) (fst q) && Nat.eqb (snd p) (snd q).
Lemma E_eqb_true : forall p q, E_eqb p q = true <-> p = q.
Proof.
  intros [a d] [b e]. unfold E_eqb. cbn. rewrite andb_true_iff, lc_eqb_true, Nat.eqb_eq. split; [intros [-> ->]; auto|].
  intros H. injection H. auto.
Qed.
Lemma E_dec : forall p q : E, {p = q} + {p <> q}.
Proof. intros p q. destruct (E_eqb p q) eqn:Q; [left; apply E_eqb_true; auto|right; intros H; apply E_eqb_true in H; congruence]. Qed.
Definition EE_eqb (s t : E * E) : bool := E_eqb (fst s) (fst t) && E_eqb (snd s) (snd t).
Lemma EE_eqb_true : forall s t, EE_eqb s t = true <-> s = t.
Proof.
  intros [a d] [b e]. unfold EE_eqb. cbn. rewrite andb_true_iff, !E_eqb_true. split; [intros [-> ->]; auto|].
  intros H. injection H. auto.
Qed.
Lemma existsb_In : forall (A : Type) (eqb : A -> A -> bool), (forall a b, eqb a b = true <-> a = b) ->
  forall a l, existsb (eqb a) l = true <-> In a l.
Proof.
  intros A eqb H a l. rewrite existsb_exists. split; [intros (b & I & Q); apply H in Q; subst; auto|]. intros I. exists a. split; auto.
  apply H. auto.
Qed.

(** ** Finite checks *)

Definition all_signs : list (list bool) :=
  flat_map (fun a => flat_map (fun b => flat_map (fun c => map (fun d => [a; b; c; d]) [true; false]) [true; false]) [true; false]) [true; false].
Lemma in_bools : forall b : bool, In b [true; false].
Proof. intros []; cbn; auto. Qed.
Lemma in_all_signs : forall b : list bool, length b = 4 -> In b all_signs.
Proof.
  intros [|a [|b [|c [|d [|? ?]]]]] H; try discriminate. unfold all_signs.
  apply in_flat_map. exists a. split; [apply in_bools|]. apply in_flat_map. exists b. split; [apply in_bools|].
  apply in_flat_map. exists c. split; [apply in_bools|].
  apply in_map_iff. exists d. split; [auto|apply in_bools].
Qed.
Lemma lt6 : forall P : nat -> Prop, P 0 -> P 1 -> P 2 -> P 3 -> P 4 -> P 5 -> forall i, i < 6 -> P i.
Proof. intros. do 6 (destruct i as [|i]; [assumption|]). lia. Qed.
Lemma tnodes_length : forall i, length (tnodes i) = 4.
Proof. intros i. unfold tnodes. destruct (nth i edge_indices _) as [[? ?] ?]. auto. Qed.
Lemma signs_all : forall s x i, In (signs s x i) all_signs.
Proof. intros s x i. apply in_all_signs. unfold signs, nodes_at. rewrite !map_length. apply tnodes_length. Qed.

(** Two tetrahedra, the second moved by [D], with different signs at a common node. *)
Definition conflict (i : nat) (b : list bool) (D : lc) (i' : nat) (b' : list bool) : bool :=
  existsb (fun nv => existsb (fun nv' => lc_eqb (fst nv) (lc_add D (fst nv')) && negb (Bool.eqb (snd nv) (snd nv')))
                             (combine (tnodes i') b')) (combine (tnodes i) b).
Lemma in_combine_map : forall (A B : Type) (f : A -> B) l a b, In (a, b) (combine l (map f l)) -> In a l /\ b = f a.
Proof.
  intros A B f l a b. induction l as [|c l IH]; cbn; [tauto|]. intros [H|H]; [injection H as <- <-; auto|]. apply IH in H. tauto.
Qed.
Lemma no_conflict : forall s x i D i', conflict i (signs s x i) D i' (signs s (lc_add x D) i') = false.
Proof.
  intros s x i D i'. destruct (conflict _ _ _ _ _) eqn:Q; auto. exfalso. unfold conflict in Q.
  apply existsb_exists in Q. destruct Q as ([n v] & I1 & Q). apply existsb_exists in Q. destruct Q as ([n' v'] & I2 & Q).
  cbn [fst snd] in Q. apply andb_true_iff in Q. destruct Q as [Q1 Q2]. apply lc_eqb_true in Q1.
  unfold signs, nodes_at in I1, I2. rewrite map_map in I1, I2. apply in_combine_map in I1, I2. destruct I1 as [_ ->], I2 as [_ ->].
  subst n. rewrite <- lc_add_assoc, eqb_reflx in Q2. discriminate.
Qed.

Definition cases : list (nat * list bool) := list_prod (seq 0 6) all_signs.
Definition side_cases : list (nat * list bool * (E * E)) := flat_map (fun c => map (pair c) (rsides (fst c) (snd c))) cases.
Lemma in_side_cases : forall s x i sd, i < 6 -> In sd (rsides i (signs s x i)) -> In (i, signs s x i, sd) side_cases.
Proof.
  intros s x i sd L H. unfold side_cases. apply in_flat_map. exists (i, signs s x i). split.
  - apply in_prod; [apply in_seq; lia|apply signs_all].
  - apply in_map_iff. exists sd. auto.
Qed.

Definition check1 (c c' : nat * list bool * (E * E)) : bool :=
  let '(i, b, sd) := c in let '(i', b', sd') := c' in
  let D := lc_sub (fst (fst sd)) (fst (fst sd')) in
  if EE_eqb sd (shift2 D sd') then (lc_eqb D o3 && Nat.eqb i i') || conflict i b D i' b' else true.
Lemma check1_ok : forallb (fun c => forallb (check1 c) side_cases) side_cases = true.
Proof. vm_compute. reflexivity. Qed.

Definition nodupb (l : list (E * E)) : bool :=
  (fix go l := match l with [] => true | a :: l' => negb (existsb (EE_eqb a) l') && go l' end) l.
Lemma nodupb_true : forall l, nodupb l = true -> NoDup l.
Proof.
  induction l as [|a l IH]; intros H; [constructor|]. cbn in H. apply andb_true_iff in H. destruct H as [H1 H2]. constructor; auto.
  intros Q. apply (existsb_In _ _ EE_eqb_true) in Q. rewrite Q in H1. discriminate.
Qed.
Lemma nodup_ok : forallb (fun c => nodupb (rsides (fst c) (snd c))) cases = true.
Proof. vm_compute. reflexivity. Qed.

Definition holdsb (c : lc * nat) (p : E) : bool :=
  existsb (lc_eqb (fst p)) (nodes_at (fst c) (snd c)) && existsb (lc_eqb (neighbor (fst p) (snd p))) (nodes_at (fst c) (snd c)).
Definition candidates (p : E) : list (lc * nat) :=
  flat_map (fun i => map (fun n => (lc_sub (fst p) n, i)) (tnodes i)) (seq 0 6).
Definition is_self (i : nat) (c : lc * nat) : bool := lc_eqb (fst c) o3 && Nat.eqb (snd c) i.
Definition rev2 (sd : E * E) : E * E := (snd sd, fst sd).
Definition check2 (c : nat * list bool * (E * E)) : bool :=
  let '(i, b, sd) := c in
  let cs := filter (fun c => holdsb c (fst sd) && holdsb c (snd sd)) (candidates (fst sd)) in
  if existsb (EE_eqb (rev2 sd)) (rsides i b) then forallb (is_self i) cs
  else existsb (fun c => negb (is_self i c) && forallb (fun c' => is_self i c' || E_eqb c' c) cs &&
                         forallb (fun b' => conflict i b (fst c) (snd c) b' ||
                                            existsb (EE_eqb (rev2 sd)) (map (shift2 (fst c)) (rsides (snd c) b'))) all_signs) cs.
Lemma check2_ok : forallb check2 side_cases = true.
Proof. vm_compute. reflexivity. Qed.

(** Every corner of a face is on an edge of the tetrahedron with different signs; every such edge is a corner. *)
Definition sign_of (i : nat) (b : list bool) (n : lc) : option bool :=
  option_map snd (find (fun nv => lc_eqb (fst nv) n) (combine (tnodes i) b)).
Lemma sign_of_signs : forall s x i n, sign_of i (signs s x i) n = if in_dec lc_dec n (tnodes i) then Some (s (lc_add x n)) else None.
Proof.
  intros s x i n. unfold sign_of, signs, nodes_at. rewrite map_map. induction (tnodes i) as [|m l IH]; cbn [map combine find]; auto.
  cbn [fst]. destruct (lc_eqb m n) eqn:Q.
  - apply lc_eqb_true in Q. subst m. destruct (in_dec lc_dec n (n :: l)) as [K|K]; auto. exfalso. apply K. left. auto.
  - apply lc_eqb_false in Q. rewrite IH. destruct (in_dec lc_dec n l) as [H|H], (in_dec lc_dec n (m :: l)) as [K|K]; auto; exfalso.
    + apply K. right. auto.
    + destruct K as [K|K]; auto.
Qed.
Definition opposed (i : nat) (b : list bool) (p : E) : bool :=
  match sign_of i b (fst p), sign_of i b (neighbor (fst p) (snd p)) with Some u, Some v => negb (Bool.eqb u v) | _, _ => false end.
Definition corners (f : faceE) : list E := let '(p, q, r) := f in [p; q; r].
Definition check3 (c : nat * list bool) : bool :=
  let '(i, b) := c in
  forallb (fun p => opposed i b p && (snd p <? 7)) (flat_map corners (rel_faces i b)) &&
  forallb (fun n => forallb (fun d => if opposed i b (n, d) then existsb (E_eqb (n, d)) (flat_map corners (rel_faces i b)) else true) (seq 0 7))
          (tnodes i).
Lemma check3_ok : forallb check3 cases = true.
Proof. vm_compute. reflexivity. Qed.

(** In a tetrahedron with faces every node is at an edge with different signs. *)
Definition check4 (c : nat * list bool) : bool :=
  let '(i, b) := c in
  match rel_faces i b with
  | [] => true
  | _ => forallb (fun n => existsb (fun e => match sign_of i b n, sign_of i b (neighbor n e) with
                                             | Some u, Some v => negb (Bool.eqb u v) | _, _ => false end) (seq 0 14)) (tnodes i)
  end.
Lemma check4_ok : forallb check4 cases = true.
Proof. vm_compute. reflexivity. Qed.

Definition check5 (f : faceE) : bool := let '(p, q, r) := f in negb (E_eqb p q) && negb (E_eqb q r) && negb (E_eqb r p).
Lemma check5_ok : forallb (fun c => forallb check5 (rel_faces (fst c) (snd c))) cases = true.
Proof. vm_compute. reflexivity. Qed.

(** ** The same for tetrahedra anywhere in the lattice *)

Lemma in_cases : forall s x i, i < 6 -> In (i, signs s x i) cases.
Proof. intros s x i L. apply in_prod; [apply in_seq; lia|apply signs_all]. Qed.

Lemma tet_sides_rel : forall s x i, tet_sides s x i = map (shift2 x) (rsides i (signs s x i)).
Proof.
  intros s x i. unfold tet_sides, tet_faces, rsides. generalize (rel_faces i (signs s x i)). intros fs.
  induction fs as [|[[p q] r] fs IH]; cbn [map flat_map]; auto. rewrite map_app, IH. auto.
Qed.

Lemma shift2_cancel : forall x s t, shift2 x s = shift2 x t -> s = t.
Proof. intros x [a b] [c d] H. unfold shift2 in H. cbn in H. injection H as H1 H2. f_equal; apply (shift_cancel x); unfold shift; cbn; congruence. Qed.

Lemma NoDup_map_in : forall (A B : Type) (f : A -> B) l, (forall x y, In x l -> In y l -> f x = f y -> x = y) -> NoDup l -> NoDup (map f l).
Proof.
  intros A B f l H ND. induction ND as [|a l NI ND IH]; cbn; constructor.
  - intros Q. apply in_map_iff in Q. destruct Q as (b & Q & I). apply H in Q; [subst; auto|right; auto|left; auto].
  - apply IH. intros x y X Y. apply H; right; auto.
Qed.

Theorem tet_sides_nodup : forall s x i, i < 6 -> NoDup (tet_sides s x i).
Proof.
  intros s x i L. rewrite tet_sides_rel. apply NoDup_map_in; [intros a b _ _; apply shift2_cancel|].
  apply nodupb_true. pose proof nodup_ok as H. rewrite forallb_forall in H. apply (H (i, signs s x i)). apply in_cases. auto.
Qed.

Theorem tet_sides_unique : forall s x i x' i' sd, i < 6 -> i' < 6 -> In sd (tet_sides s x i) -> In sd (tet_sides s x' i') ->
  x' = x /\ i' = i.
Proof.
  intros s x i x' i' sd L L'. rewrite !tet_sides_rel. intros H H'. apply in_map_iff in H, H'.
  destruct H as (a & Ea & Ha), H' as (a' & Ea' & Ha').
  pose proof check1_ok as C. rewrite forallb_forall in C. specialize (C _ (in_side_cases s x i a L Ha)).
  rewrite forallb_forall in C. specialize (C _ (in_side_cases s x' i' a' L' Ha')). cbn [check1] in C.
  set (D := lc_sub (fst (fst a)) (fst (fst a'))) in *.
  assert (x' = lc_add x D) as EX.
  { apply sub_of_add. destruct a as [[n d] q], a' as [[n' d'] q']. rewrite <- Ea in Ea'. unfold shift2, shift in Ea'. cbn in Ea'.
    cbn. congruence. }
  assert (a = shift2 D a') as EA.
  { apply (shift2_cancel x). rewrite Ea, <- Ea', EX. unfold shift2. cbn [fst snd]. rewrite !shift_shift. auto. }
  assert (EE_eqb a (shift2 D a') = true) as Q by (apply EE_eqb_true; auto). rewrite Q in C.
  rewrite EX, no_conflict, orb_false_r in C. apply andb_true_iff in C. destruct C as [C1 C2].
  apply lc_eqb_true in C1. apply Nat.eqb_eq in C2. split; [|auto]. rewrite EX, C1. apply lc_add_o3.
Qed.

Lemma holds_rel : forall x D i p, holds (lc_add x D) i (shift x p) <-> holdsb (D, i) p = true.
Proof.
  intros x D i p. unfold holds, holdsb. cbn [fst snd]. rewrite andb_true_iff, !(existsb_In _ _ lc_eqb_true).
  unfold shift. cbn [fst snd]. rewrite neighbor_shift.
  assert (forall n, In (lc_add x n) (nodes_at (lc_add x D) i) <-> In n (nodes_at D i)) as Q.
  { intros n. unfold nodes_at. rewrite !in_map_iff. split; intros (m & Q & I); exists m; (split; [|auto]).
    - rewrite lc_add_assoc in Q. apply lc_add_cancel in Q. auto.
    - rewrite lc_add_assoc, Q. auto. }
  rewrite !Q. tauto.
Qed.

Lemma in_candidates : forall x' i' x p, i' < 6 -> holds x' i' (shift x p) -> exists D, x' = lc_add x D /\ In (D, i') (candidates p).
Proof.
  intros x' i' x p L [H _]. unfold nodes_at in H. apply in_map_iff in H. destruct H as (n & Q & I). unfold shift in Q. cbn [fst] in Q.
  exists (lc_sub (fst p) n). split; [apply sub_of_add; auto|]. unfold candidates. apply in_flat_map. exists i'. split; [apply in_seq; lia|].
  apply in_map_iff. exists n. auto.
Qed.

Theorem tet_side_pair : forall s x i p q, i < 6 -> In (p, q) (tet_sides s x i) ->
  (In (q, p) (tet_sides s x i) /\ forall x' i', i' < 6 -> holds x' i' p -> holds x' i' q -> x' = x /\ i' = i) \/
  (~ In (q, p) (tet_sides s x i) /\ exists y j, j < 6 /\ In (q, p) (tet_sides s y j) /\ holds y j p /\ holds y j q /\
     forall x' i', i' < 6 -> holds x' i' p -> holds x' i' q -> (x' = x /\ i' = i) \/ (x' = y /\ i' = j)).
Proof.
  intros s x i p q L. rewrite tet_sides_rel. intros H. apply in_map_iff in H. destruct H as ([a b] & EQ & H).
  unfold shift2 in EQ. cbn [fst snd] in EQ. injection EQ as EP EQ'. pose proof check2_ok as C. rewrite forallb_forall in C.
  specialize (C _ (in_side_cases s x i _ L H)). unfold check2, rev2 in C. cbn [fst snd] in C.
  set (cs := filter _ (candidates a)) in C.
  assert (p = shift x a) as -> by (rewrite <- EP; reflexivity). assert (q = shift x b) as -> by (rewrite <- EQ'; reflexivity). clear EP EQ'.
  assert (forall x' i', i' < 6 -> holds x' i' (shift x a) -> holds x' i' (shift x b) -> exists D, x' = lc_add x D /\ In (D, i') cs) as IN.
  { intros x' i' L' H1 H2. destruct (in_candidates _ _ _ _ L' H1) as (D & -> & ID). exists D. split; auto. unfold cs. apply filter_In.
    split; auto. apply holds_rel in H1, H2. rewrite H1, H2. auto. }
  assert (forall D i', is_self i (D, i') = true -> lc_add x D = x /\ i' = i) as SELF.
  { intros D i' Q. unfold is_self in Q. cbn [fst snd] in Q. apply andb_true_iff in Q. destruct Q as [Q1 Q2]. apply lc_eqb_true in Q1.
    apply Nat.eqb_eq in Q2. subst D. rewrite lc_add_o3. auto. }
  assert (forall l, In (shift x b, shift x a) (map (shift2 x) l) <-> In (b, a) l) as MS.
  { intros l. rewrite in_map_iff. split; [|intros I; exists (b, a); auto]. intros ([c d] & Q & I). unfold shift2 in Q. cbn [fst snd] in Q.
    injection Q as Q1 Q2. assert (c = b) as -> by (apply (shift_cancel x); unfold shift; congruence).
    assert (d = a) as -> by (apply (shift_cancel x); unfold shift; congruence). auto. }
  destruct (existsb (EE_eqb (b, a)) (rsides i (signs s x i))) eqn:SAME; rewrite ?SAME in C.
  - left. apply (existsb_In _ _ EE_eqb_true) in SAME. split; [apply MS; auto|]. intros x' i' L' H1 H2.
    destruct (IN x' i' L' H1 H2) as (D & -> & I). rewrite forallb_forall in C. apply C in I. apply SELF; auto.
  - right. split; [rewrite MS, <- (existsb_In _ _ EE_eqb_true); congruence|].
    apply existsb_exists in C. destruct C as ([D j] & I & C). cbn [fst snd] in C.
    apply andb_true_iff in C. destruct C as [C C3]. apply andb_true_iff in C. destruct C as [C1 C2].
    exists (lc_add x D), j. unfold cs in I. apply filter_In in I. destruct I as [I1 I2]. apply andb_true_iff in I2. destruct I2 as [I2 I3].
    assert (j < 6) as Lj.
    { unfold candidates in I1. apply in_flat_map in I1. destruct I1 as (k & K & I1). apply in_map_iff in I1. destruct I1 as (n & Q & _).
      injection Q as _ <-. apply in_seq in K. lia. }
    split; auto. split; [|split; [apply holds_rel; auto|split; [apply holds_rel; auto|]]].
    + rewrite tet_sides_rel. rewrite forallb_forall in C3. specialize (C3 _ (signs_all s (lc_add x D) j)).
      rewrite no_conflict in C3. cbn [orb] in C3. apply (existsb_In _ _ EE_eqb_true) in C3. apply in_map_iff in C3.
      destruct C3 as ([c d] & Q & I). apply in_map_iff. exists (c, d). split; auto. unfold shift2 in *. cbn [fst snd] in *.
      rewrite !shift_shift. injection Q as Q1 Q2. rewrite <- Q1, <- Q2. auto.
    + intros x' i' L' H1 H2. destruct (IN x' i' L' H1 H2) as (D' & -> & I). rewrite forallb_forall in C2. apply C2 in I.
      apply orb_true_iff in I. destruct I as [I|I]; [left; apply SELF; auto|]. right. apply E_eqb_true in I. injection I as -> ->. auto.
Qed.

Lemma in_tet_corners : forall s x i p, In p (flat_map corners (tet_faces s x i)) <-> exists a, p = shift x a /\ In a (flat_map corners (rel_faces i (signs s x i))).
Proof.
  intros s x i p. unfold tet_faces. generalize (rel_faces i (signs s x i)). intros fs. rewrite in_flat_map. split.
  - intros (f & I & H). apply in_map_iff in I. destruct I as ([[a b] c] & <- & I). cbn in H.
    assert (forall u, In u [a; b; c] -> exists a0, shift x u = shift x a0 /\ In a0 (flat_map corners fs)) as Q.
    { intros u U. exists u. split; auto. apply in_flat_map. exists (a, b, c). auto. }
    destruct H as [<-|[<-|[<-|[]]]]; apply Q; cbn; auto.
  - intros (a & -> & H). apply in_flat_map in H. destruct H as (f & I & H). exists (shift3 x f). split; [apply in_map; auto|].
    destruct f as [[u v] w]. cbn in *. destruct H as [<-|[<-|[<-|[]]]]; auto.
Qed.

Lemma opposed_iff : forall s x i p, opposed i (signs s x i) p = true <->
  holds x i (shift x p) /\ s (fst (shift x p)) <> s (neighbor (fst (shift x p)) (snd p)).
Proof.
  intros s x i p. unfold opposed. rewrite !sign_of_signs. unfold holds, nodes_at, shift. cbn [fst snd]. rewrite neighbor_shift.
  assert (forall n, In (lc_add x n) (map (lc_add x) (tnodes i)) <-> In n (tnodes i)) as Q.
  { intros n. rewrite in_map_iff. split; [intros (m & Q & I); apply lc_add_cancel in Q; subst; auto|eauto]. }
  rewrite !Q. destruct (in_dec _ _ _); [|intuition congruence]. destruct (in_dec _ _ _); [|intuition congruence].
  rewrite negb_true_iff, eqb_false_iff. intuition.
Qed.

(** The corners of the faces are the edges with different signs. *)
Theorem tet_corners : forall s x i p, i < 6 ->
  (In p (flat_map corners (tet_faces s x i)) <->
   snd p < 7 /\ holds x i p /\ s (fst p) <> s (neighbor (fst p) (snd p))).
Proof.
  intros s x i p L. rewrite in_tet_corners. pose proof check3_ok as C. rewrite forallb_forall in C.
  specialize (C _ (in_cases s x i L)). cbn [check3] in C. apply andb_true_iff in C. destruct C as [C1 C2]. rewrite forallb_forall in C1, C2.
  split.
  - intros (a & -> & I). apply C1 in I. apply andb_true_iff in I. destruct I as [I1 I2]. apply Nat.ltb_lt in I2. apply opposed_iff in I1.
    split; [auto|]. exact I1.
  - intros (Lp & H & S). destruct H as [H1 H2]. pose proof H1 as K. unfold nodes_at in H1. apply in_map_iff in H1. destruct H1 as (n & Q & I).
    destruct p as [m d]. cbn [fst snd] in *. subst m. exists (n, d). split; [auto|]. specialize (C2 _ I). rewrite forallb_forall in C2.
    specialize (C2 d ltac:(apply in_seq; lia)). assert (opposed i (signs s x i) (n, d) = true) as O.
    { apply opposed_iff. split; [split; auto|auto]. }
    rewrite O in C2. apply (existsb_In _ _ E_eqb_true) in C2. auto.
Qed.

(** Every node of a cut tetrahedron has an edge with different signs inside it. *)
Theorem tet_mixed : forall s x i n, i < 6 -> tet_faces s x i <> [] -> In n (nodes_at x i) ->
  exists e, e < 14 /\ In (neighbor n e) (nodes_at x i) /\ s n <> s (neighbor n e).
Proof.
  intros s x i n L NE I. pose proof check4_ok as C. rewrite forallb_forall in C. specialize (C _ (in_cases s x i L)). cbn [check4] in C.
  unfold tet_faces in NE. destruct (rel_faces i (signs s x i)) eqn:Q; [cbn in NE; congruence|]. rewrite forallb_forall in C.
  unfold nodes_at in I. apply in_map_iff in I. destruct I as (m & <- & I). specialize (C _ I). apply existsb_exists in C.
  destruct C as (e & Le & C). apply in_seq in Le. exists e. split; [lia|]. rewrite !sign_of_signs in C. rewrite neighbor_shift.
  destruct (in_dec _ _ _); [|discriminate]. destruct (in_dec _ _ _) as [J|]; [|discriminate]. split; [apply in_map; auto|].
  apply negb_true_iff, eqb_false_iff in C. auto.
Qed.

Theorem tet_face_distinct : forall s x i p q r, i < 6 -> In (p, q, r) (tet_faces s x i) -> p <> q /\ q <> r /\ r <> p.
Proof.
  intros s x i p q r L H. unfold tet_faces in H. apply in_map_iff in H. destruct H as ([[a b] c] & Q & I). cbn in Q.
  pose proof check5_ok as C. rewrite forallb_forall in C. specialize (C _ (in_cases s x i L)). cbn [fst snd] in C.
  rewrite forallb_forall in C. specialize (C _ I). cbn in C. apply andb_true_iff in C. destruct C as [C C3].
  apply andb_true_iff in C. destruct C as [C1 C2]. rewrite negb_true_iff in C1, C2, C3.
  assert (forall u v, E_eqb u v = false -> shift x u <> shift x v) as K.
  { intros u v K W. apply shift_cancel in W. apply E_eqb_true in W. congruence. }
  injection Q as <- <- <-. split; [apply K; auto|]. split; apply K; auto.
Qed.

(** The six tetrahedra are the simplices of the specification. *)
Lemma perm3 : forall a b c, Permutation [a; b; c] axes -> exists i, i < 6 /\
  Permutation [o3; a; lc_add a b; lc_add (lc_add a b) c] (tnodes i).
Proof.
  intros a b c P. unfold axes in P.
  assert (forall l, Permutation l [(1, 0, 0); (0, 1, 0); (0, 0, 1)]%Z -> forall u, In u l -> u = (1,0,0)%Z \/ u = (0,1,0)%Z \/ u = (0,0,1)%Z) as M.
  { intros l Q u U. apply (Permutation_in _ Q) in U. cbn in U. intuition. }
  assert (NoDup [a; b; c]) as ND.
  { eapply Permutation_NoDup; [apply Permutation_sym; eauto|]. repeat constructor; cbn; intuition congruence. }
  inversion ND as [|? ? N1 ND']; subst. inversion ND' as [|? ? N2 _]; subst. cbn in N1, N2.
  pose proof (M _ P a (or_introl eq_refl)) as Ha. pose proof (M _ P b (or_intror (or_introl eq_refl))) as Hb.
  pose proof (M _ P c (or_intror (or_intror (or_introl eq_refl)))) as Hc.
  assert (forall u v w z : lc, Permutation [u; v; w; z] [u; z; w; v]) as P4.
  { intros u v w z. apply perm_skip. eapply perm_trans; [apply perm_swap|]. eapply perm_trans; [apply perm_skip, perm_swap|]. apply perm_swap. }
  assert (forall u v w z : lc, Permutation [u; v; w; z] [u; z; v; w]) as P5.
  { intros u v w z. apply perm_skip. eapply perm_trans; [apply perm_skip, perm_swap|]. apply perm_swap. }
  assert (a <> b) as D1 by (intros Q; apply N1; left; auto). assert (a <> c) as D2 by (intros Q; apply N1; right; left; auto).
  assert (b <> c) as D3 by (intros Q; apply N2; left; auto). clear M P ND ND' N1 N2.
  destruct Ha as [->|[->| ->]], Hb as [->|[->| ->]], Hc as [->|[->| ->]];
    try (exfalso; apply D1; reflexivity); try (exfalso; apply D2; reflexivity); try (exfalso; apply D3; reflexivity).
  - exists 3. split; [lia|]. apply P5.
  - exists 2. split; [lia|]. apply P4.
  - exists 4. split; [lia|]. apply P4.
  - exists 5. split; [lia|]. apply P5.
  - exists 1. split; [lia|]. apply P5.
  - exists 0. split; [lia|]. apply P4.
Qed.
Lemma simplex_tet : forall S, simplex S -> exists x i, i < 6 /\ Permutation S (nodes_at x i).
Proof.
  intros S (x & a & b & c & P & ->). destruct (perm3 a b c P) as (i & L & Q). exists x, i. split; auto. unfold nodes_at.
  apply (Permutation_map (lc_add x)) in Q. cbn [map] in Q. rewrite lc_add_o3 in Q. rewrite !lc_add_assoc in Q |- *. rewrite !lc_add_assoc. exact Q.
Qed.
Lemma tet_simplex : forall x i, i < 6 -> exists S, simplex S /\ Permutation S (nodes_at x i).
Proof.
  intros x i L.
  assert (exists a b c, Permutation [a; b; c] axes /\ Permutation [o3; a; lc_add a b; lc_add (lc_add a b) c] (tnodes i)) as (a & b & c & P & Q).
  { assert (forall u v w z : lc, Permutation [u; v; w; z] [u; z; w; v]) as P4.
    { intros u v w z. apply perm_skip. eapply perm_trans; [apply perm_swap|]. eapply perm_trans; [apply perm_skip, perm_swap|]. apply perm_swap. }
    assert (forall u v w z : lc, Permutation [u; v; w; z] [u; z; v; w]) as P5.
    { intros u v w z. apply perm_skip. eapply perm_trans; [apply perm_skip, perm_swap|]. apply perm_swap. }
    set (X := (1, 0, 0)%Z). set (Y := (0, 1, 0)%Z). set (Z := (0, 0, 1)%Z).
    assert (Permutation [X; Y; Z] axes) as A1 by apply Permutation_refl.
    assert (Permutation [X; Z; Y] axes) as A2 by (apply perm_skip, perm_swap).
    assert (Permutation [Y; X; Z] axes) as A3 by apply perm_swap.
    assert (Permutation [Z; X; Y] axes) as A4 by (eapply perm_trans; [apply perm_swap|exact A2]).
    assert (Permutation [Y; Z; X] axes) as A5 by (eapply perm_trans; [apply perm_skip, perm_swap|exact A3]).
    assert (Permutation [Z; Y; X] axes) as A6 by (eapply perm_trans; [apply perm_skip, perm_swap|exact A4]).
    revert i L. apply lt6.
    - exists Z, Y, X. split; [auto|]. apply P4.
    - exists Z, X, Y. split; [auto|]. apply P5.
    - exists X, Z, Y. split; [auto|]. apply P4.
    - exists X, Y, Z. split; [auto|]. apply P5.
    - exists Y, X, Z. split; [auto|]. apply P4.
    - exists Y, Z, X. split; [auto|]. apply P5. }
  exists [x; lc_add x a; lc_add (lc_add x a) b; lc_add (lc_add (lc_add x a) b) c]. split; [exists x, a, b, c; auto|].
  unfold nodes_at. apply (Permutation_map (lc_add x)) in Q. cbn [map] in Q. rewrite lc_add_o3 in Q. rewrite !lc_add_assoc in Q |- *. rewrite !lc_add_assoc. exact Q.
Qed.
