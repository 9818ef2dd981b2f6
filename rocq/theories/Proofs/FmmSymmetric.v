From Coq Require Import List Arith NArith Reals Bool Lia Lra Permutation.
From Verif Require Import Model.Outcome Model.Solver Model.Fmm Spec.Fmm Proofs.Solver Proofs.LatticeVertices Proofs.Fmm.
Import ListNotations.

Section Sym.
Variable P : Type.
Variable E : fenv P.
Notation kn := (kn P E).
Notation km := (km P E).
Hypothesis OK : env_ok P E.
Hypothesis ZERO : same_at_zero P E.

Lemma except_sum : forall (f : nat -> R) k l a, NoDup l ->
  (fold_left (fun acc m => if m =? k then acc else (acc + f m)%R) l a + (if in_dec Nat.eq_dec k l then f k else 0) = a + fold_right Rplus 0 (map f l))%R.
Proof.
  induction l as [|m l IH]; intros a N; cbn [fold_left map fold_right].
  - destruct (in_dec Nat.eq_dec k []); [destruct i|ring].
  - apply NoDup_cons_iff in N. destruct N as [N1 N2]. specialize (fun a => IH a N2). destruct (Nat.eqb_spec m k) as [->|NE].
    + specialize (IH a). destruct (in_dec Nat.eq_dec k (k :: l)) as [_|F]; [|exfalso; apply F; left; auto].
      destruct (in_dec Nat.eq_dec k l); [tauto|]. lra.
    + specialize (IH (a + f m)%R). destruct (in_dec Nat.eq_dec k (m :: l)) as [[->|I]|F]; [tauto| |].
      * destruct (in_dec Nat.eq_dec k l); [|tauto]. lra.
      * destruct (in_dec Nat.eq_dec k l); [exfalso; apply F; right; auto|]. lra.
Qed.

Lemma fold_ext : forall A B (f g : A -> B -> A) l a, (forall a x, f a x = g a x) -> fold_left f l a = fold_left g l a.
Proof. induction l as [|x l IH]; intros a H; cbn; auto. rewrite H. auto. Qed.

(** The particle itself is left out by full_direct and added by handle_self_interaction: in all, every
    particle counts once. *)
Lemma direct_once : forall ps k q i, nth_error ps k = Some q ->
  (direct_sym P E ps k i + self_term P E ps k i = direct_at P E ps (p_pos q) i)%R.
Proof.
  intros ps k q i Q. unfold direct_sym, self_term, direct_except. rewrite Q.
  set (f := fun m => match nth_error ps m with Some q' => contribution P E (p_pos q) q' i | None => 0%R end).
  rewrite (fold_ext _ _ _ (fun acc m => if m =? k then acc else (acc + f m)%R)).
  2: { intros a m. unfold f. destruct (m =? k); auto. destruct (nth_error ps m); auto. ring. }
  pose proof (except_sum f k (seq 0 (length ps)) 0%R (seq_NoDup _ _)) as H.
  destruct (in_dec Nat.eq_dec k (seq 0 (length ps))) as [_|F].
  2: { exfalso. apply F. apply in_seq. split; [lia|]. apply nth_error_Some. congruence. }
  unfold f in H at 2 3. rewrite Q in H. rewrite (seq_map_nth _ ps (fun q' => contribution P E (p_pos q) q' i)) in H. rewrite direct_sum.
  rewrite contribution_sum in H. rewrite fold_plus.
  assert (sum km (fun j => nth j (p_in q) 0 * kernel P E (p_pos q) (p_pos q) i j)%R =
    fold_right Rplus 0%R (map (fun j => (nth j (p_in q) 0 * kernel P E (origin P E) (origin P E) i j)%R) (seq 0 km))) as W.
  { unfold sum. f_equal. apply map_ext. intros j. rewrite ZERO. reflexivity. }
  rewrite <- W. lra.
Qed.

Record sinv (v : view P) (fine : Prop) (s : sym P) : Prop := {
  j_acc : y_accuracy P s = v_accuracy v;
  j_src : src_ok P E v (y_src P s);
  j_st : y_tree P s = None;
  j_cfg : cfg_ok (y_cfg P s) (y_operator P s);
  j_best : best_ok P E (v_accuracy v) (points_in P (v_src v)) fine (y_best P s) }.

Lemma sinv_weaken : forall v (f f' : Prop) s, (f' -> f) -> sinv v f s -> sinv v f' s.
Proof. intros v f f' s H [A1 A2 A3 A4 A5]. split; auto. eapply best_ok_weaken; eauto. Qed.
Lemma sinv_new : sinv (new_view P) True (new_sym P).
Proof.
  split; cbn; auto.
  - exists (fun _ => []). constructor.
  - left. reflexivity.
  - intros h c; discriminate.
Qed.

Lemma ids_perm : forall pts ps, points_in P pts ps -> Permutation (map (@p_id P) ps) (seq 0 (length pts)).
Proof. intros pts ps (ins & H). apply (Permutation_map (@p_id P)) in H. rewrite numbered_map in H. cbn in H. rewrite numbered_seq in H. auto. Qed.

Lemma loaded_at : forall pts w ps j t, loaded P E pts w ps -> nth_error pts j = Some t -> exists k, nth_error ps k = Some (Particle t (ins_of P E w j) j).
Proof.
  intros pts w ps j t L J. apply In_nth_error. apply (Permutation_in _ (Permutation_sym L)). apply (nth_error_In _ j). rewrite numbered_nth, J. reflexivity.
Qed.
Lemma loaded_in : forall pts w ps k q, loaded P E pts w ps -> nth_error ps k = Some q -> p_in q = ins_of P E w (p_id q).
Proof.
  intros pts w ps k q L Q. apply nth_error_In in Q. apply (Permutation_in _ L) in Q. apply numbered_In in Q. destruct Q as (m & x & _ & _ & ->). reflexivity.
Qed.

(** The result of the direct branch. *)
Lemma sym_direct : forall v ps, src_ok P E v ps -> exists y,
  potentials P E (length ps) (map (@p_id P) ps) (fun k i => (direct_sym P E ps k i + self_term P E ps k i)%R) = Ok y /\
  forall w, v_weights v = Some w -> sym_correct P E v w y.
Proof.
  intros v ps S. pose proof (src_ok_points _ _ _ _ S) as PI. rewrite (points_length _ _ _ PI).
  destruct (potentials_ok P E (length (v_src v)) (map (@p_id P) ps) (fun k i => (direct_sym P E ps k i + self_term P E ps k i)%R)
    (ids_perm _ _ PI)) as (y & Y & L & G).
  exists y. split; auto. intros w W. unfold src_ok in S. rewrite W in S. left. split; auto. intros j t i J I.
  destruct (loaded_at _ _ _ _ _ S J) as (k & K). specialize (G k j i). rewrite nth_error_map, K in G. rewrite (G eq_refl I). f_equal.
  rewrite (direct_once ps k _ i K). cbn [p_pos]. apply direct_loaded. auto.
Qed.
Lemma sym_far : forall v ps c, src_ok P E v ps -> ~ (N.of_nat (length (v_src v)) < 1024)%N -> chosen P E v (height_of P E (length (v_src v))) c ->
  exists y, potentials P E (length ps) (map (@p_id P) ps) (fun k i => (far_sym P E c ps k i + self_term P E ps k i)%R) = Ok y /\
  forall w, v_weights v = Some w -> sym_correct P E v w y.
Proof.
  intros v ps c S NS C. pose proof (src_ok_points _ _ _ _ S) as PI. rewrite (points_length _ _ _ PI).
  destruct (potentials_ok P E (length (v_src v)) (map (@p_id P) ps) (fun k i => (far_sym P E c ps k i + self_term P E ps k i)%R)
    (ids_perm _ _ PI)) as (y & Y & L & G).
  exists y. split; auto. intros w W. unfold src_ok in S. rewrite W in S. right. exists c, ps. split; auto. split; auto. split; auto. split; auto.
  intros k q i K I. specialize (G k (p_id q) i). rewrite nth_error_map, K in G. rewrite (G eq_refl I). f_equal. f_equal.
  unfold self_term. rewrite K, fold_plus, Rplus_0_l. unfold sum. f_equal. apply map_ext_in. intros j J. apply in_seq in J.
  rewrite (loaded_in _ _ _ _ _ S K), ins_nth by lia. rewrite (ZERO (p_pos q)). reflexivity.
Qed.

Lemma sym_evaluate_spec : forall v fine s, sinv v fine s -> match sym_evaluate P E s with
  | Ok (s', inl y) => sinv v fine s' /\ forall w, v_weights v = Some w -> sym_correct P E v w y
  | Ok (s', inr e) => e = ExRuntimeError /\ sinv v False s'
  | Throw _ => False
  | UB => ~ fine
  end.
Proof.
  intros v fine s I. unfold sym_evaluate, sym_prepare.
  assert (length (y_src P s) = length (v_src v)) as LS by (apply points_length; apply (src_ok_points P E); apply I).
  rewrite LS. destruct (N.ltb_spec (N.of_nat (length (v_src v))) 1024) as [SM|SM].
  { cbn [bind y_cfg c_height no_config Nat.ltb Nat.leb y_src].
    destruct (sym_direct v (y_src P s) (j_src _ _ _ I)) as (y & Y & G). rewrite Y. cbn [bind]. split; auto.
    destruct I. split; cbn; auto. left; auto. }
  set (h := height_of P E (length (v_src v))).
  set (s2 := if y_level P s <? h - 1 then _ else s).
  assert (sinv v fine s2) as I2.
  { unfold s2. destruct (y_level P s <? h - 1); auto. destruct I. split; cbn; auto. eapply src_ok_perm; [apply (sort_src_ok P E OK)|auto]. }
  clearbody s2. clear I LS. rename I2 into I.
  assert (2 <= h) as H2 by apply (height_ok P E OK).
  assert (forall s' c, sinv v fine s' ->
    (c = no_config /\ ~ fine) \/ (c_height c = h /\ 6 <= c_order c /\ chosen P E v h c) ->
    match (if negb (config_eqb c (y_cfg P s')) && (c_order c =? 0) then UB else
        let s := if config_eqb c (y_cfg P s') then s'
                 else Sym P (y_accuracy P s') (y_src P s') (y_level P s') c (Some c) None (y_best P s') in
        let s := match y_tree P s with
                 | Some _ => s
                 | None => Sym P (y_accuracy P s) (y_src P s) (y_level P s) (y_cfg P s) (y_operator P s) (Some (y_src P s)) (y_best P s)
                 end in
        Ok (s, @None exn)) with
    | Ok (s3, None) => y_accuracy P s3 = y_accuracy P s' /\ y_src P s3 = y_src P s' /\
         y_cfg P s3 = c /\ cfg_ok (y_cfg P s3) (y_operator P s3) /\ y_tree P s3 = Some (y_src P s') /\ y_best P s3 = y_best P s'
    | UB => ~ fine
    | _ => False
    end) as G.
  { intros s' c I' C. pose proof (j_st _ _ _ I') as Q1.
    destruct (config_eqb c (y_cfg P s')) eqn:EC.
    - apply config_eqb_eq in EC. cbn [negb andb]. rewrite Q1. cbn -[cfg_ok]. split; auto. split; auto.
      split; auto. split; [apply I'|]. auto.
    - cbn [negb andb]. destruct (c_order c =? 0) eqn:OZ.
      + apply Nat.eqb_eq in OZ. destruct C as [[_ C]|C]; auto. lia.
      + cbn -[cfg_ok]. split; auto. split; auto. split; auto. split; [|auto].
        destruct C as [[-> _]|(C1 & C2 & _)]; [discriminate|]. right. split; [lia|]. auto. }
  assert (forall s' s3 c, sinv v fine s' -> y_accuracy P s3 = y_accuracy P s' -> y_src P s3 = y_src P s' ->
         y_cfg P s3 = c -> cfg_ok (y_cfg P s3) (y_operator P s3) -> y_tree P s3 = Some (y_src P s') -> y_best P s3 = y_best P s' ->
         (c = no_config /\ ~ fine) \/ (c_height c = h /\ 6 <= c_order c /\ chosen P E v h c) ->
    match (let release := Sym P (y_accuracy P s3) (y_src P s3) (y_level P s3) (y_cfg P s3) (y_operator P s3) None (y_best P s3) in
      if 0 <? c_height (y_cfg P s3) then
        match y_tree P s3, y_operator P s3 with
        | Some t, Some c =>
            let* y := potentials P E (length (y_src P s3)) (map p_id t) (fun k i => (far_sym P E c t k i + self_term P E t k i)%R) in
            Ok (release, inl y)
        | _, _ => UB
        end
      else
        let* y := potentials P E (length (y_src P s3)) (map p_id (y_src P s3)) (fun k i => (direct_sym P E (y_src P s3) k i + self_term P E (y_src P s3) k i)%R) in
        Ok (release, @inl (list R) exn y)) with
    | Ok (s', inl y) => sinv v fine s' /\ forall w, v_weights v = Some w -> sym_correct P E v w y
    | Ok (s', inr e) => e = ExRuntimeError /\ sinv v False s'
    | Throw _ => False
    | UB => ~ fine
    end) as K.
  { intros s' s3 c I' A1 A2 A5 A6 A7 A9 C.
    assert (sinv v fine (Sym P (y_accuracy P s3) (y_src P s3) (y_level P s3) (y_cfg P s3) (y_operator P s3) None (y_best P s3))) as IR.
    { destruct I'. split; cbn; rewrite ?A1, ?A2, ?A9; auto. }
    cbv zeta. rewrite A2 in *. rewrite A5 in *. rewrite A7.
    destruct C as [[-> NF]|(C1 & C2 & C3)].
    - cbn [no_config c_height Nat.ltb Nat.leb].
      destruct (sym_direct v (y_src P s') (j_src _ _ _ I')) as (y & Y & G'). rewrite Y. cbn [bind]. split; auto.
    - destruct (Nat.ltb_spec 0 (c_height c)) as [_|]; [|lia]. destruct A6 as [->|(_ & _ & O)]; [cbn in C1; lia|]. rewrite O in *.
      destruct (sym_far v (y_src P s') c (j_src _ _ _ I')) as (y & Y & G'); [lia|auto|]. rewrite Y. cbn [bind]. split; auto. }
  unfold sym_find_best. destruct (y_best P s2 h) as [c|] eqn:B.
  - cbn [bind]. assert ((c = no_config /\ ~ fine) \/ (c_height c = h /\ 6 <= c_order c /\ chosen P E v h c)) as C.
    { destruct (j_best _ _ _ I h c B) as [C|(C1 & C2 & C3)]; [left; auto|right]. auto. }
    specialize (G s2 c I C). specialize (fun s3 => K s2 s3 c I).
    match goal with H : match ?x with _ => _ end |- _ => destruct x as [[s3 [e|]]|e|]; cbn [bind]; try contradiction; try exact H end.
    destruct G as (A1 & A2 & A5 & A6 & A7 & A9). apply K; auto.
  - pose proof (search_spec P E OK (y_accuracy P s2) (y_src P s2) h) as S. destruct (search P E (y_accuracy P s2) (y_src P s2) h) as [c|e|] eqn:SE; [| |contradiction].
    + cbn [bind]. rewrite (j_acc _ _ _ I) in SE. destruct S as [S1 S2].
      assert (chosen P E v h c) as CH. { exists (y_src P s2). split; auto. apply (src_ok_points P E). apply I. }
      assert (sinv v fine (sym_with_best P s2 (upd_nat (y_best P s2) h (Some c)))) as I'.
      { destruct I. split; cbn; auto. intros h' c' H'. unfold upd_nat in H'. destruct (h' =? h) eqn:HH; auto.
        apply Nat.eqb_eq in HH. injection H' as <-. right. split; [congruence|]. split; auto. rewrite HH. exact CH. }
      assert ((c = no_config /\ ~ fine) \/ (c_height c = h /\ 6 <= c_order c /\ chosen P E v h c)) as C by (right; auto).
      specialize (G _ c I' C). specialize (fun s3 => K _ s3 c I').
      match goal with H : match ?x with _ => _ end |- _ => destruct x as [[s3 [e|]]|e|]; cbn [bind]; try contradiction; try exact H end.
      destruct G as (A1 & A2 & A5 & A6 & A7 & A9). apply K; auto.
    + cbn [bind]. split; auto. destruct I. split; cbn; auto. intros h' c' H'. unfold upd_nat in H'. destruct (h' =? h) eqn:HH.
      * injection H' as <-. left. auto.
      * destruct (j_best0 h' c' H') as [[-> _]|R]; [left; auto|right; auto].
Qed.

Definition sclean1 (b : bool) (o : sym_op P) (r : option (list R + exn)) : bool :=
  match o, r with SymSetAccuracy _, _ | SymSetPoints _, _ => true | SymEvaluate, Some (inr _) => false | _, _ => b end.
Lemma sclean_cons : forall o os r rs b, sym_clean P b (o :: os) (r :: rs) = sym_clean P (sclean1 b o r) os rs.
Proof. intros [a|p|w|] os [[y|e]|] rs b; reflexivity. Qed.

Lemma sym_step_spec : forall v b s o, sym_sized P E v o -> sinv v (holds b) s -> match sym_step P E s o with
  | Ok (s', r) => sinv (sym_see P v o) (holds (sclean1 b o r)) s'
  | Throw _ => False
  | UB => o = SymEvaluate /\ b = false
  end.
Proof.
  intros v b s o Z I. destruct o as [a|p|w|]; cbn [sym_step].
  - destruct I. split; cbn; auto. intros h c; discriminate.
  - destruct I. split; cbn; auto; [|intros h c; discriminate]. exists (stale P E). apply Permutation_refl.
  - unfold sym_set_weights. rewrite (j_st _ _ _ I). destruct (reload P E w (v_src v) (y_src P s)) as (ps & PS & L); [exact Z|apply (src_ok_points P E); apply I|].
    rewrite PS. cbn [bind]. destruct I. split; cbn; auto.
  - pose proof (sym_evaluate_spec v (holds b) s I) as EV. destruct (sym_evaluate P E s) as [[s' [y|e]]|e|]; cbn [bind fst snd].
    + destruct EV as [EV1 EV2]. exact EV1.
    + destruct EV as [-> EV]. cbn [sclean1 sym_see]. eapply sinv_weaken; [|apply EV]. unfold holds. discriminate.
    + auto.
    + split; auto. unfold holds in EV. destruct b; auto. exfalso. auto.
Qed.

Lemma sym_run_spec : forall os v b s, sym_well_sized P E v os -> sinv v (holds b) s -> forall s' rs, sym_run P E s os = Ok (s', rs) ->
  sinv (fold_left (sym_see P) os v) (holds (sym_clean P b os rs)) s'.
Proof.
  induction os as [|o os IH]; intros v b s Z I s' rs H; cbn in H.
  - injection H as <- <-. exact I.
  - destruct Z as [Z1 Z2]. pose proof (sym_step_spec v b s o Z1 I) as S. destruct (sym_step P E s o) as [[s1 r]|e|]; cbn in H; try discriminate.
    destruct (sym_run P E s1 os) as [[s2 rs2]|e|] eqn:RE; cbn in H; try discriminate. injection H as <- <-.
    rewrite sclean_cons. cbn [fold_left]. apply (IH _ _ s1 Z2 S s2 rs2 RE).
Qed.

Theorem sym_evaluation_correct : forall os s rs, sym_well_sized P E (new_view P) os -> sym_run P E (new_sym P) os = Ok (s, rs) ->
  match sym_evaluate P E s with
  | Ok (_, inl y) => forall w, v_weights (sym_seen P os) = Some w -> sym_correct P E (sym_seen P os) w y
  | Ok (_, inr e) => e = ExRuntimeError
  | Throw _ => False
  | UB => sym_clean P true os rs = false
  end.
Proof.
  intros os s rs Z H. assert (sinv (sym_seen P os) (holds (sym_clean P true os rs)) s) as I.
  { apply (sym_run_spec os (new_view P) true (new_sym P) Z); auto. eapply sinv_weaken; [|apply sinv_new]. auto. }
  pose proof (sym_evaluate_spec _ _ _ I) as EV. destruct (sym_evaluate P E s) as [[s' [y|e]]|e|]; try tauto. unfold holds in EV. destruct (sym_clean P true os rs); auto. exfalso. auto.
Qed.
End Sym.
