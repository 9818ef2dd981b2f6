From Coq Require Import List Arith Bool Lia.
From Verif Require Import Model.Outcome Model.RbfHandles Spec.RbfHandles.
Import ListNotations.

Section Sim.
Variable V : Type.
Variable same : V -> V -> bool.
Notation state := (state V).
Notation vars := (vars V).
Notation objects := (objects V).
Notation next := (next V).

Record good (s : state) (st : store V) : Prop := Good {
  g_val : forall i, st i = match vars s i with None => None | Some None => Some None | Some (Some a) => Some (objects s a) end;
  g_obj : forall i a, vars s i = Some (Some a) -> objects s a <> None;
  g_inj : forall i j a, vars s i = Some (Some a) -> vars s j = Some (Some a) -> i = j;
  g_own : forall a, objects s a <> None -> exists i, vars s i = Some (Some a);
  g_next : forall a, next s <= a -> objects s a = None }.

Lemma good_start : good (start V) (fun _ => None).
Proof. split; cbn; auto; try discriminate. intros a H. congruence. Qed.

Lemma below : forall s st i a, good s st -> vars s i = Some (Some a) -> a < next s.
Proof.
  intros s st i a G H. destruct (Nat.lt_ge_cases a (next s)) as [|L]; auto. exfalso. apply (g_obj _ _ G i a H). apply (g_next _ _ G a L).
Qed.

Definition simulated (r : outcome (state * list (seen V))) (q : outcome (store V * list (seen V))) : Prop :=
  match q with
  | Ok (st, l) => exists s, r = Ok (s, l) /\ good s st
  | Throw e => r = Throw e
  | UB => r = UB
  end.

Ltac eqbs := repeat match goal with
  | H : context [?a =? ?b] |- _ => destruct (Nat.eqb_spec a b); try subst
  | |- context [?a =? ?b] => destruct (Nat.eqb_spec a b); try subst end.

(** A variable that is not constructed gets a new object. *)
Lemma good_make : forall s st i v, good s st -> vars s i = None ->
  good (set_var V (snd (allocate V s v)) i (Some (Some (next s)))) (put V st i (Some (Some v))).
Proof.
  intros s st i v G N. assert (B := fun k a => below s st k a G). destruct G as [G1 G2 G3 G4 G5]. split; cbn; unfold upd, put.
  - intros k. destruct (Nat.eqb_spec k i) as [->|D]; [rewrite Nat.eqb_refl; reflexivity|]. rewrite G1. destruct (vars s k) as [[a|]|] eqn:K; auto.
    assert (a < next s) by eauto. destruct (Nat.eqb_spec a (next s)); [lia|reflexivity].
  - intros k a H. destruct (Nat.eqb_spec a (next s)); [discriminate|]. destruct (Nat.eqb_spec k i); [injection H; lia|eauto].
  - intros k j a H K. destruct (Nat.eqb_spec k i), (Nat.eqb_spec j i); subst; auto.
    + injection H as <-. specialize (B _ _ K). lia.
    + injection K as <-. specialize (B _ _ H). lia.
    + eauto.
  - intros a H. destruct (Nat.eqb_spec a (next s)) as [E|D]; [exists i; rewrite Nat.eqb_refl, E; reflexivity|].
    destruct (G4 a H) as (k & K). exists k. destruct (Nat.eqb_spec k i) as [->|]; [congruence|exact K].
  - intros a L. destruct (Nat.eqb_spec a (next s)); [lia|]. apply G5. lia.
Qed.
(** An empty variable. *)
Lemma good_null : forall s st i, good s st -> (forall a, vars s i <> Some (Some a)) ->
  good (set_var V s i (Some None)) (put V st i (Some None)).
Proof.
  intros s st i [G1 G2 G3 G4 G5] N. split; cbn; unfold upd, put; auto.
  - intros k. destruct (Nat.eqb_spec k i); auto.
  - intros k a H. destruct (Nat.eqb_spec k i); [discriminate|eauto].
  - intros k j a H K. destruct (Nat.eqb_spec k i), (Nat.eqb_spec j i); try discriminate. eauto.
  - intros a H. destruct (G4 a H) as (k & K). exists k. destruct (Nat.eqb_spec k i) as [->|]; [exfalso; exact (N a K)|exact K].
Qed.
(** A variable is dropped with its object. *)
Lemma good_drop : forall s st i x, good s st -> vars s i = Some x ->
  exists s', release V (set_var V s i None) x = Ok s' /\ good s' (put V st i None).
Proof.
  intros s st i x [G1 G2 G3 G4 G5] N. destruct x as [a|]; cbn [release].
  - cbn. destruct (objects s a) as [v|] eqn:A; [|exfalso; exact (G2 _ _ N A)]. eexists. split; [reflexivity|]. split; cbn; unfold upd, put.
    + intros k. destruct (Nat.eqb_spec k i); auto. rewrite G1. destruct (vars s k) as [[b|]|] eqn:K; auto.
      destruct (Nat.eqb_spec b a) as [EE|]; auto. subst b. exfalso. eauto.
    + intros k b H. destruct (Nat.eqb_spec k i); [discriminate|]. destruct (Nat.eqb_spec b a) as [EE|]; [subst b; exfalso; eauto|eauto].
    + intros k j b H K. destruct (Nat.eqb_spec k i), (Nat.eqb_spec j i); try discriminate. eauto.
    + intros b H. destruct (Nat.eqb_spec b a) as [EE|]; [subst b; congruence|]. destruct (G4 b H) as (k & K). exists k.
      destruct (Nat.eqb_spec k i) as [->|]; [congruence|exact K].
    + intros b L. destruct (Nat.eqb_spec b a); auto.
  - eexists. split; [reflexivity|]. split; cbn; unfold upd, put; auto.
    + intros k. destruct (Nat.eqb_spec k i); auto.
    + intros k b H. destruct (Nat.eqb_spec k i); [discriminate|eauto].
    + intros k j b H K. destruct (Nat.eqb_spec k i), (Nat.eqb_spec j i); try discriminate. eauto.
    + intros b H. destruct (G4 b H) as (k & K). exists k. destruct (Nat.eqb_spec k i) as [->|]; [congruence|exact K].
Qed.
(** The pointer of one variable goes to another one that is not constructed. *)
Lemma good_move : forall s st i j x, good s st -> vars s i = None -> vars s j = Some x ->
  good (set_var V (set_var V s i (Some x)) j (Some None)) (put V (put V st i (st j)) j (Some None)).
Proof.
  intros s st i j x [G1 G2 G3 G4 G5] N J. assert (D : i <> j) by congruence. split; cbn; unfold upd, put; auto.
  - intros k. destruct (Nat.eqb_spec k j); auto. destruct (Nat.eqb_spec k i); auto. rewrite G1, J. reflexivity.
  - intros k a H. destruct (Nat.eqb_spec k j); [discriminate|]. destruct (Nat.eqb_spec k i); [injection H as ->; eauto|eauto].
  - intros k l a H K. destruct (Nat.eqb_spec k j), (Nat.eqb_spec l j); try discriminate. destruct (Nat.eqb_spec k i), (Nat.eqb_spec l i); subst; auto.
    + injection H as ->. exfalso. apply n0. eauto.
    + injection K as ->. exfalso. apply n. eauto.
    + eauto.
  - intros a H. destruct (G4 a H) as (k & K). destruct (Nat.eq_dec k j) as [->|E].
    + exists i. destruct (Nat.eqb_spec i j); [contradiction|]. rewrite Nat.eqb_refl. congruence.
    + exists k. destruct (Nat.eqb_spec k j); [contradiction|]. destruct (Nat.eqb_spec k i) as [->|]; [congruence|exact K].
Qed.
(** An object is overwritten. *)
Lemma good_change : forall s st i a v, good s st -> vars s i = Some (Some a) ->
  good (State V (upd (objects s) a (Some v)) (next s) (vars s)) (put V st i (Some (Some v))).
Proof.
  intros s st i a v G H. assert (B := below s st i a G H). destruct G as [G1 G2 G3 G4 G5]. split; cbn; unfold upd, put.
  - intros k. destruct (Nat.eqb_spec k i) as [->|D]; [rewrite H, Nat.eqb_refl; reflexivity|]. rewrite G1. destruct (vars s k) as [[b|]|] eqn:K; auto.
    destruct (Nat.eqb_spec b a) as [EE|]; auto. subst b. exfalso. eauto.
  - intros k b K. destruct (Nat.eqb_spec b a); [discriminate|eauto].
  - eauto.
  - intros b K. destruct (Nat.eqb_spec b a) as [EE|]; [subst b|]; eauto.
  - intros b L. destruct (Nat.eqb_spec b a); [lia|auto].
Qed.
(** Stores that agree stand for the same. *)
Lemma good_ext : forall s st st', good s st -> (forall i, st' i = st i) -> good s st'.
Proof. intros s st st' [G1 G2 G3 G4 G5] E. split; auto. intros i. rewrite E. apply G1. Qed.
(** Variables that are looked up. *)
Lemma value_of : forall s st i, good s st ->
  (vars s i = None /\ st i = None) \/ (vars s i = Some None /\ st i = Some None) \/
  (exists a v, vars s i = Some (Some a) /\ objects s a = Some v /\ st i = Some (Some v)).
Proof.
  intros s st i [G1 G2 _ _ _]. rewrite G1. destruct (vars s i) as [[a|]|] eqn:E; auto. right. right. destruct (objects s a) as [v|] eqn:A; [eauto|].
  exfalso. exact (G2 _ _ E A).
Qed.

(** A variable gets a new object instead of what it had. *)
Lemma good_assign : forall s st i old v, good s st -> vars s i = Some old ->
  exists s', release V (set_var V (snd (allocate V s v)) i (Some (Some (next s)))) old = Ok s' /\ good s' (put V st i (Some (Some v))).
Proof.
  intros s st i old v G I1. assert (B := fun k a => below s st k a G). destruct G as [G1 G2 G3 G4 G5]. destruct old as [c|]; cbn [release].
  - assert (L := B _ _ I1). cbn. unfold upd at 1. destruct (Nat.eqb_spec c (next s)); [lia|]. destruct (objects s c) as [w|] eqn:C; [|exfalso; exact (G2 _ _ I1 C)].
    eexists. split; [reflexivity|]. split; cbn; unfold upd, put.
    + intros k. destruct (Nat.eqb_spec k i) as [->|D].
      * destruct (Nat.eqb_spec (next s) c); [lia|]. rewrite Nat.eqb_refl. reflexivity.
      * rewrite G1. destruct (vars s k) as [[a|]|] eqn:K; auto. assert (LA := B _ _ K). destruct (Nat.eqb_spec a c) as [EE|]; [subst a; exfalso; eauto|].
        destruct (Nat.eqb_spec a (next s)); [lia|reflexivity].
    + intros k a H. destruct (Nat.eqb_spec k i).
      * injection H as EE. subst a. destruct (Nat.eqb_spec (next s) c); [lia|]. rewrite Nat.eqb_refl. discriminate.
      * assert (LA := B _ _ H). destruct (Nat.eqb_spec a c) as [EE|]; [subst a; exfalso; eauto|]. destruct (Nat.eqb_spec a (next s)); [lia|eauto].
    + intros k j a H K. destruct (Nat.eqb_spec k i), (Nat.eqb_spec j i); subst; auto.
      * injection H as EE. specialize (B _ _ K). lia.
      * injection K as EE. specialize (B _ _ H). lia.
      * eauto.
    + intros a H. destruct (Nat.eqb_spec a c) as [EE|NC]; [congruence|]. destruct (Nat.eqb_spec a (next s)) as [EE|NN]; [exists i; rewrite Nat.eqb_refl, EE; reflexivity|].
      destruct (G4 a H) as (k & K). exists k. destruct (Nat.eqb_spec k i) as [EE|]; [subst k; congruence|exact K].
    + intros a LA. destruct (Nat.eqb_spec a c); auto. destruct (Nat.eqb_spec a (next s)); [lia|]. apply G5. lia.
  - eexists. split; [reflexivity|]. split; cbn; unfold upd, put.
    + intros k. destruct (Nat.eqb_spec k i) as [->|D]; [rewrite Nat.eqb_refl; reflexivity|]. rewrite G1. destruct (vars s k) as [[a|]|] eqn:K; auto.
      assert (LA := B _ _ K). destruct (Nat.eqb_spec a (next s)); [lia|reflexivity].
    + intros k a H. destruct (Nat.eqb_spec a (next s)); [discriminate|]. destruct (Nat.eqb_spec k i); [injection H; lia|eauto].
    + intros k j a H K. destruct (Nat.eqb_spec k i), (Nat.eqb_spec j i); subst; auto.
      * injection H as EE. specialize (B _ _ K). lia.
      * injection K as EE. specialize (B _ _ H). lia.
      * eauto.
    + intros a H. destruct (Nat.eqb_spec a (next s)) as [EE|NN]; [exists i; rewrite Nat.eqb_refl, EE; reflexivity|].
      destruct (G4 a H) as (k & K). exists k. destruct (Nat.eqb_spec k i) as [EE|]; [subst k; congruence|exact K].
    + intros a LA. destruct (Nat.eqb_spec a (next s)); [lia|]. apply G5. lia.
Qed.
(** A variable takes the pointer of another one and drops what it had. *)
Lemma good_take : forall s st i j old x, good s st -> i <> j -> vars s i = Some old -> vars s j = Some x ->
  exists s', release V (set_var V (set_var V s j (Some None)) i (Some x)) old = Ok s' /\ good s' (put V (put V st j (Some None)) i (st j)).
Proof.
  intros s st i j old x G NE I1 J. destruct (good_drop s st i old G I1) as (s1 & R1 & G1).
  assert (N1 : vars s1 i = None /\ vars s1 j = Some x /\
    release V (set_var V (set_var V s j (Some None)) i (Some x)) old = Ok (State V (objects s1) (next s1) (upd (upd (vars s) j (Some None)) i (Some x))) /\
    forall k, k <> i -> vars s1 k = vars s k).
  { assert (NN : j =? i = false) by (apply Nat.eqb_neq; auto). destruct old as [a|]; cbn in R1 |- *.
    - destruct (objects s a); [|discriminate]. injection R1 as <-. cbn. unfold upd. rewrite Nat.eqb_refl, NN. repeat split; auto.
      intros k K. apply Nat.eqb_neq in K. rewrite K. reflexivity.
    - injection R1 as <-. cbn. unfold upd. rewrite Nat.eqb_refl, NN. repeat split; auto. intros k K. apply Nat.eqb_neq in K. rewrite K. reflexivity. }
  destruct N1 as (N1 & N2 & N3 & N4). eexists. split; [exact N3|]. assert (G2 := good_move s1 _ i j x G1 N1 N2).
  assert (G3 : good (State V (objects s1) (next s1) (upd (upd (vars s) j (Some None)) i (Some x))) (put V (put V (put V st i None) i (put V st i None j)) j (Some None))).
  { destruct G2 as [P1 P2 P3 P4 P5].
    assert (E : forall k, vars (State V (objects s1) (next s1) (upd (upd (vars s) j (Some None)) i (Some x))) k = vars (set_var V (set_var V s1 i (Some x)) j (Some None)) k).
    { intros k. cbn. unfold upd. destruct (Nat.eqb_spec k i), (Nat.eqb_spec k j); subst; auto; try contradiction. symmetry. auto. }
    split.
    - intros k. rewrite E. apply P1.
    - intros k a H. rewrite E in H. exact (P2 k a H).
    - intros k l a H K. rewrite E in H, K. exact (P3 k l a H K).
    - intros a H. destruct (P4 a H) as (k & K). exists k. rewrite E. exact K.
    - exact P5. }
  eapply good_ext; [exact G3|]. intros k. unfold put. destruct (Nat.eqb_spec k i), (Nat.eqb_spec k j); subst; auto; try contradiction.
  destruct (Nat.eqb_spec j i); [congruence|reflexivity].
Qed.

Lemma good_same : forall (s s' : state) st, good s st -> objects s' = objects s -> next s' = next s -> (forall k, vars s' k = vars s k) -> good s' st.
Proof.
  intros s s' st [G1 G2 G3 G4 G5] O N E. split; rewrite ?O, ?N; auto.
  - intros i. rewrite E. apply G1.
  - intros i a H. rewrite E in H. eauto.
  - intros i j a H K. rewrite E in H, K. eauto.
  - intros a H. destruct (G4 a H) as (i & K). exists i. rewrite E. exact K.
Qed.

Lemma step_sim : forall s st o, good s st -> simulated (step V same s o) (value_step V same st o).
Proof.
  intros s st o G. destruct o as [i v|i|i j|i j|i j|i j|i f|i|i j|i]; cbn [step value_step].
  - cbn. unfold construct, declare, allocate. cbn. destruct (value_of s st i G) as [[A B]|[[A B]|(a & w & A & _ & B)]]; rewrite A, B; cbn; auto.
    eexists. split; [reflexivity|]. exact (good_make s st i v G A).
  - unfold construct, declare. destruct (value_of s st i G) as [[A B]|[[A B]|(a & w & A & _ & B)]]; rewrite A, B; cbn; auto.
    eexists. split; [reflexivity|]. apply good_null; auto. intros a. rewrite A. discriminate.
  - unfold copy_new, pointer, alive. destruct (value_of s st j G) as [[A B]|[[A B]|(a & w & A & O & B)]]; rewrite A, B; cbn; auto;
      unfold construct, declare; cbn; destruct (value_of s st i G) as [[C D]|[[C D]|(c & d & C & _ & D)]].
    + rewrite C, D. cbn. eexists. split; [reflexivity|]. apply good_null; auto. intros a. rewrite C. discriminate.
    + rewrite C, D. reflexivity.
    + rewrite C, D. reflexivity.
    + rewrite O. cbn. rewrite C, D. cbn. eexists. split; [reflexivity|]. exact (good_make s st i w G C).
    + rewrite O. cbn. rewrite C, D. reflexivity.
    + rewrite O. cbn. rewrite C, D. reflexivity.
  - unfold move_new, pointer, alive. destruct (value_of s st j G) as [[A B]|[[A B]|(a & w & A & O & B)]]; rewrite A, B; cbn; auto;
      unfold construct, declare; destruct (value_of s st i G) as [[C D]|[[C D]|(c & d & C & _ & D)]]; rewrite C, D; cbn; auto;
      (eexists; split; [reflexivity|]); assert (M := good_move s st i j _ G C A); rewrite B in M; exact M.
  - unfold copy_assign, pointer, alive. destruct (value_of s st i G) as [[C D]|[[C D]|(c & d & C & _ & D)]]; rewrite C, D; cbn [bind]; [reflexivity| |].
    all: destruct (value_of s st j G) as [[A B]|[[A B]|(a & w & A & O & B)]]; rewrite A, B; cbn [bind]; [reflexivity| |].
    all: destruct (Nat.eqb_spec i j) as [E|NE]; [exists s; auto|]; unfold look; rewrite B; cbn [deref bind]; try reflexivity.
    all: rewrite O; cbn [bind]; destruct (good_assign s st i _ w G C) as (s' & R1 & G1); cbn [allocate snd] in R1; cbn [allocate]; rewrite R1; exists s'; auto.
  - unfold move_assign, pointer, alive. destruct (value_of s st i G) as [[C D]|[[C D]|(c & d & C & _ & D)]]; rewrite C, D; cbn [bind]; [reflexivity| |].
    all: destruct (value_of s st j G) as [[A B]|[[A B]|(a & w & A & O & B)]]; rewrite A, B; cbn [bind]; [reflexivity| |].
    all: destruct (Nat.eq_dec i j) as [E|NE];
      [subst j; cbn; unfold upd; rewrite Nat.eqb_refl; cbn; eexists; split; [reflexivity|]; eapply good_same; [eapply good_ext; [exact G|]|reflexivity|reflexivity|];
        [intros k; unfold put; destruct (Nat.eqb_spec k i); [subst k; congruence|reflexivity]|cbn; unfold upd; intros k; destruct (Nat.eqb_spec k i); [subst k; congruence|reflexivity]]|].
    all: cbn [set_var vars]; unfold upd at 1; destruct (Nat.eqb_spec i j) as [E|_]; [contradiction|]; rewrite C; cbn [bind];
      destruct (good_take s st i j _ _ G NE C A) as (s' & R1 & G1); rewrite R1; cbn [bind]; exists s'; rewrite B in G1; auto.
  - unfold change, pointer, look. destruct (value_of s st i G) as [[C D]|[[C D]|(c & d & C & O & D)]]; rewrite C, D; cbn [bind deref]; [reflexivity|reflexivity|].
    rewrite O. cbn [bind]. destruct (f d) as [v'|e|]; cbn; [|exists s; auto|reflexivity]. eexists. split; [reflexivity|]. apply good_change; auto.
  - unfold read, pointer, look. destruct (value_of s st i G) as [[C D]|[[C D]|(c & d & C & O & D)]]; rewrite C, D; cbn [bind deref]; [reflexivity|reflexivity|].
    rewrite O. cbn. exists s. auto.
  - unfold compare, pointer, alive, look. destruct (value_of s st i G) as [[C D]|[[C D]|(c & d & C & O1 & D)]]; rewrite C, D; cbn [bind]; [reflexivity| |].
    all: destruct (value_of s st j G) as [[A B]|[[A B]|(a & w & A & O & B)]]; rewrite A, B; cbn [bind]; [reflexivity| |].
    all: destruct (i =? j); cbn [bind deref]; [exists s; auto|]; rewrite ?D, ?O1; cbn [bind deref]; rewrite ?O; cbn; auto. exists s. auto.
  - unfold destroy, pointer, alive. destruct (value_of s st i G) as [[C D]|[[C D]|(c & d & C & O & D)]]; rewrite C, D; cbn [bind]; [reflexivity| |].
    all: destruct (good_drop s st i _ G C) as (s' & R1 & G1); rewrite R1; exists s'; auto.
Qed.

Lemma run_sim : forall os s st, good s st -> simulated (run V same s os) (value_run V same st os).
Proof.
  induction os as [|o os IH]; intros s st G; cbn [run value_run]; [exists s; auto|]. assert (Q := step_sim s st o G).
  destruct (value_step V same st o) as [[st1 l1]| |]; cbn [simulated] in Q; [|rewrite Q; reflexivity|rewrite Q; reflexivity].
  destruct Q as (s1 & -> & G1). cbn [bind fst snd]. assert (P := IH s1 st1 G1).
  destruct (value_run V same st1 os) as [[st2 l2]| |]; cbn [simulated] in P; [|rewrite P; reflexivity|rewrite P; reflexivity].
  destruct P as (s2 & -> & G2). cbn. exists s2. auto.
Qed.

Lemma good_owned : forall s st, good s st -> owned V s.
Proof.
  intros s st [G1 G2 G3 G4 G5]. split; auto. intros a H. destruct (G4 a H) as (i & K). exists i. split; auto. intros j J. eauto.
Qed.

Lemma handles_are_values : forall os,
  match value_run V same (fun _ => None) os with
  | Ok (st, l) => exists s, run V same (start V) os = Ok (s, l) /\ (forall i, values V s i = st i) /\ owned V s
  | Throw e => run V same (start V) os = Throw e
  | UB => run V same (start V) os = UB
  end.
Proof.
  intros os. assert (Q := run_sim os _ _ good_start). destruct (value_run V same (fun _ => None) os) as [[st l]| |]; cbn [simulated] in Q; auto.
  destruct Q as (s & E & G). exists s. split; auto. split; [intros i; symmetry; apply (g_val _ _ G)|exact (good_owned s st G)].
Qed.

Lemma value_kept : forall st o st' l k, value_step V same st o = Ok (st', l) -> ~ writes V o k -> st' k = st k.
Proof.
  intros st o st' l k H N. destruct o as [i v|i|i j|i j|i j|i j|i f|i|i j|i]; cbn in H, N; unfold declare, alive, look in H;
    repeat match type of H with context [match ?x with _ => _ end] => destruct x; cbn in H; try discriminate end;
    try (injection H as <- <-; cbn; unfold put; repeat match goal with |- context [k =? ?x] => destruct (Nat.eqb_spec k x); [subst; exfalso; tauto|] end; auto).
Qed.
Lemma values_kept : forall os st st' l k, value_run V same st os = Ok (st', l) -> Forall (fun o => ~ writes V o k) os -> st' k = st k.
Proof.
  induction os as [|o os IH]; intros st st' l k H F; cbn in H; [injection H as <- <-; reflexivity|]. inversion F as [|? ? F1 F2]; subst.
  destruct (value_step V same st o) as [[st1 l1]| |] eqn:E; try discriminate. cbn in H.
  destruct (value_run V same st1 os) as [[st2 l2]| |] eqn:E2; try discriminate. cbn in H. injection H as <- <-. rewrite (IH _ _ _ _ E2 F2). eapply value_kept; eauto.
Qed.
Lemma run_app : forall os ps s, run V same s (os ++ ps) =
  bind (run V same s os) (fun r => bind (run V same (fst r) ps) (fun t => Ok (fst t, snd r ++ snd t))).
Proof.
  induction os as [|o os IH]; intros ps s; cbn [run app].
  - cbn. destruct (run V same s ps) as [[t l]| |]; reflexivity.
  - destruct (step V same s o) as [[s1 l1]| |]; cbn [bind]; auto. rewrite IH. destruct (run V same (fst (s1, l1)) os) as [[s2 l2]| |]; cbn [bind]; auto.
    cbn [fst snd]. destruct (run V same s2 ps) as [[s3 l3]| |]; cbn; auto. rewrite app_assoc. reflexivity.
Qed.
Lemma others_kept : forall os ps s l s' l' k, run V same (start V) os = Ok (s, l) -> run V same s ps = Ok (s', l') -> Forall (fun o => ~ writes V o k) ps ->
  values V s' k = values V s k.
Proof.
  intros os ps s l s' l' k E1 E2 F. assert (Q := run_sim os _ _ good_start). rewrite E1 in Q.
  destruct (value_run V same (fun _ => None) os) as [[st l0]| |]; cbn [simulated] in Q; try discriminate. destruct Q as (s0 & Q & G). injection Q as <- <-.
  assert (P := run_sim ps s st G). rewrite E2 in P. destruct (value_run V same st ps) as [[st' l1]| |] eqn:E; cbn [simulated] in P; try discriminate.
  destruct P as (s1 & P & G'). injection P as <- <-. unfold values. rewrite <- (g_val _ _ G'), <- (g_val _ _ G). eapply values_kept; eauto.
Qed.
End Sim.

Lemma no_leak : forall V same os s l, run V same (start V) os = Ok (s, l) -> (forall i, vars V s i = None) -> forall a, objects V s a = None.
Proof.
  intros V same os s l E N a. assert (Q := handles_are_values V same os). rewrite E in Q.
  destruct (value_run V same (fun _ => None) os) as [[st l0]| |]; try discriminate. destruct Q as (s0 & Q & _ & (_ & O)). injection Q as <- <-.
  destruct (objects V s a) as [v|] eqn:A; auto. destruct (O a) as (i & I1 & _); [congruence|]. rewrite N in I1. discriminate.
Qed.
Lemma copy_constructs : forall V same os s l i j x, run V same (start V) os = Ok (s, l) -> vars V s i = None -> vars V s j = Some x ->
  exists s', copy_new V s i j = Ok s' /\ values V s' i = values V s j /\ values V s' j = values V s j /\
    forall a b, vars V s' i = Some (Some a) -> vars V s' j = Some (Some b) -> a <> b.
Proof.
  intros V same os s l i j x E I1 J. assert (Q := run_sim V same os _ _ (good_start V)). rewrite E in Q.
  destruct (value_run V same (fun _ => None) os) as [[st l0]| |]; cbn [simulated] in Q; try discriminate. destruct Q as (s0 & Q & G). injection Q as <- <-.
  assert (P := step_sim V same s st (CopyNew V i j) G). cbn [step value_step] in P. unfold alive, declare in P.
  assert (SI : st i = None) by (rewrite (g_val _ _ _ G), I1; reflexivity). assert (SJ : exists y, st j = Some y) by (rewrite (g_val _ _ _ G), J; destruct x; eauto).
  destruct SJ as (y & SJ). rewrite SJ in P. cbn [bind] in P. rewrite SI in P. cbn [simulated] in P. destruct P as (s' & P & G').
  destruct (copy_new V s i j) as [s1| |]; try discriminate. cbn in P. injection P as ->. assert (D : i <> j) by congruence. exists s'. split; auto.
  unfold values. rewrite <- !(g_val _ _ _ G'), <- (g_val _ _ _ G). unfold put. rewrite Nat.eqb_refl. destruct (Nat.eqb_spec j i); [congruence|]. split; [auto|]. split; auto.
  intros a b A B Q. subst b. apply D. exact (g_inj _ _ _ G' i j a A B).
Qed.
