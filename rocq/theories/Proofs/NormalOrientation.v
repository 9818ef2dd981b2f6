From Coq Require Import Reals List Arith ZArith Bool Permutation Lia Lra.
From Verif Require Import Model.Outcome Model.LinAlg Model.NormalEstimator Spec.NormalEstimator Proofs.LinAlg Proofs.NormalEstimator.
Import ListNotations.
Local Open Scope R_scope.

Lemma snoc_split : forall {A : Type} (l before after : list A) x i, l ++ [x] = before ++ i :: after ->
  (before = l /\ i = x /\ after = []) \/ (exists after', after = after' ++ [x] /\ l = before ++ i :: after').
Proof.
  intros A l before after x i E. destruct (@exists_last A (i :: after)) as (m & z & M); [discriminate|]. rewrite M in E. rewrite app_assoc in E. apply app_inj_tail in E.
  destruct E as [E1 E2]. subst z. destruct m as [|i' m]; cbn in M.
  - injection M as <- <-. left. rewrite app_nil_r in E1. auto.
  - injection M as <- ->. right. exists m. auto.
Qed.
Lemma NoDup_snoc : forall {A : Type} (l : list A) x, NoDup l -> ~ In x l -> NoDup (l ++ [x]).
Proof. intros A l x N I. apply (Permutation_NoDup (Permutation_cons_append l x)). constructor; auto. Qed.
Lemma pick_perm : forall {A : Type} j (l : list A) d, (j < length l)%nat -> Permutation l (nth j l d :: firstn j l ++ skipn (S j) l).
Proof.
  induction j as [|j IH]; intros l d L; (destruct l as [|x l]; [cbn in L; lia|]).
  - cbn. auto.
  - cbn [nth firstn skipn app]. rewrite perm_swap. constructor. apply (IH l d). cbn in L. lia.
Qed.
Lemma count_false_mark : forall (ori : nat -> bool) cur l, NoDup l -> In cur l -> ori cur = false ->
  length (filter (fun i => negb (ori i)) l) = S (length (filter (fun i => negb (mark ori cur i)) l)).
Proof.
  intros ori cur. induction l as [|x l IH]; intros N I O; [destruct I|]. inversion N; subst. cbn [filter]. unfold mark at 1. destruct (Nat.eqb_spec x cur) as [->|NE].
  - rewrite O. cbn [negb length]. f_equal. f_equal. apply filter_ext_in. intros a A. unfold mark. destruct (Nat.eqb_spec a cur); [congruence|auto].
  - destruct I as [|I]; [congruence|]. destruct (ori x); cbn [negb length]; rewrite IH; auto.
Qed.

Section Closed.
Variable n_points : nat.
Variable points : nat -> vec3.
Variable near : nat -> list nat.
Variable pop : nat -> nat.
Definition free (ori : nat -> bool) : nat := length (filter (fun i => negb (ori i)) (seq 0 n_points)).

Section Spread.
Variable nrm0 : nat -> vec3.
Variable ori0 : nat -> bool.
Record running (nrm : nat -> vec3) (ori : nat -> bool) (component : list nat) (queue : list (nat * nat)) : Prop := {
  r_rest : forall i, ~ In i component -> nrm i = nrm0 i;
  r_sign : forall i, kept_or_negated (nrm i) (nrm0 i);
  r_marks : forall i, ori i = true <-> ori0 i = true \/ In i component;
  r_nodup : NoDup component;
  r_new : forall i, In i component -> ori0 i = false /\ (i < n_points)%nat;
  r_queue : forall p c, In (p, c) queue -> In p component /\ In c (near p);
  r_linked : linked near nrm component;
  r_pushed : forall i next, In i component -> In next (near i) -> ori0 next = true \/ In next component \/ In (i, next) queue }.

Hypothesis near_ok : forall i next, In next (near i) -> (next < n_points)%nat.

Lemma push_in : forall ori cur queue p c, In (p, c) (push near ori cur queue) <-> In (p, c) queue \/ p = cur /\ In c (near cur) /\ ori c = false.
Proof.
  intros ori cur queue p c. unfold push. rewrite in_app_iff, in_flat_map. split.
  - intros [I|(x & X & Y)]; [auto|]. right. destruct (ori x) eqn:O; [destruct Y|]. destruct Y as [Y|[]]. injection Y as <- <-. auto.
  - intros [I|(-> & I & O)]; [auto|]. right. exists c. split; auto. rewrite O. left. auto.
Qed.
Lemma spread_spec : forall fuel t nrm ori component queue t' nrm' ori' component', running nrm ori component queue ->
  spread near pop fuel t nrm ori component queue = Some (t', nrm', ori', component') -> running nrm' ori' component' [] /\ exists more, component' = component ++ more.
Proof.
  induction fuel as [|fuel IH]; intros t nrm ori component queue t' nrm' ori' component' RU E.
  - destruct queue as [|q queue]; cbn in E; [|discriminate]. injection E as <- <- <- <-. split; auto. exists []. rewrite app_nil_r. auto.
  - destruct queue as [|q0 queue0] eqn:EQ; [cbn in E; injection E as <- <- <- <-; split; auto; exists []; rewrite app_nil_r; auto|]. rewrite <- EQ in *.
    assert (queue <> []) as QN by (rewrite EQ; discriminate).
    assert (spread near pop (S fuel) t nrm ori component queue =
      let j := Nat.modulo (pop t) (length queue) in
      let '(prev, cur) := nth j queue (0%nat, 0%nat) in
      let rest := firstn j queue ++ skipn (S j) queue in
      if ori cur then spread near pop fuel (S t) nrm ori component rest
      else
        let nrm' := if Rlt_dec (dot 3 (nrm cur) (nrm prev)) 0 then turn nrm cur else nrm in
        let ori' := mark ori cur in
        spread near pop fuel (S t) nrm' ori' (component ++ [cur]) (push near ori' cur rest)) as US by (rewrite EQ; reflexivity).
    rewrite US in E. clear US EQ q0 queue0. cbv zeta in E. set (j := Nat.modulo (pop t) (length queue)) in *.
    assert (j < length queue)%nat as JL. { apply Nat.mod_upper_bound. destruct queue; [contradiction|discriminate]. }
    pose proof (pick_perm j queue (0%nat, 0%nat) JL) as P. destruct (nth j queue (0%nat, 0%nat)) as [prev cur]. set (rest := firstn j queue ++ skipn (S j) queue) in *.
    destruct RU as [RR RS RM RN RW RQ RL RP].
    assert (In (prev, cur) queue) as IQ by (apply (Permutation_in _ (Permutation_sym P)); left; auto). destruct (RQ _ _ IQ) as [PC CN].
    assert (forall x, In x rest -> In x queue) as RI by (intros x X; apply (Permutation_in _ (Permutation_sym P)); right; auto).
    destruct (ori cur) eqn:OC.
    + apply IH in E; auto. constructor; auto. intros i next I X. destruct (RP i next I X) as [A|[A|A]]; auto. apply (Permutation_in _ P) in A. destruct A as [A|A]; auto.
      injection A as <- <-. apply RM in OC. tauto.
    + assert (~ In cur component) as NC by (intros C; assert (ori cur = true) by (apply RM; auto); congruence).
      assert (ori0 cur = false) as O0. { destruct (ori0 cur) eqn:O; auto. assert (ori cur = true) by (apply RM; auto). congruence. }
      set (nrm1 := if Rlt_dec (dot 3 (nrm cur) (nrm prev)) 0 then turn nrm cur else nrm) in *.
      assert (forall i, i <> cur -> nrm1 i = nrm i) as N1. { intros i NE. unfold nrm1. destruct (Rlt_dec _ 0); auto. unfold turn. destruct (Nat.eqb_spec i cur); [congruence|auto]. }
      assert (nrm1 cur = nrm0 cur \/ nrm1 cur = neg3 (nrm0 cur)) as N2.
      { rewrite <- (RR cur NC). unfold nrm1. destruct (Rlt_dec _ 0); auto. right. unfold turn. rewrite Nat.eqb_refl. auto. }
      assert (prev <> cur) as PN by (intros ->; auto).
      assert (0 <= dot 3 (nrm1 cur) (nrm1 prev)) as ND.
      { rewrite (N1 prev PN). unfold nrm1. destruct (Rlt_dec (dot 3 (nrm cur) (nrm prev)) 0) as [L|L]; [|lra]. unfold turn at 1. rewrite Nat.eqb_refl. rewrite dot_neg. lra. }
      assert (running nrm1 (mark ori cur) (component ++ [cur]) (push near (mark ori cur) cur rest)) as RU'.
      { constructor.
        - intros i I. rewrite N1; [apply RR|]; intros X; apply I, in_or_app; [left; auto|right; left; auto].
        - intros i. destruct (Nat.eq_dec i cur) as [->|NE]; [exact N2|]. rewrite N1 by auto. apply RS.
        - intros i. rewrite in_app_iff. unfold mark. destruct (Nat.eqb_spec i cur) as [->|NE]; [cbn; tauto|]. rewrite RM. cbn. split; [tauto|]. intros [A|[A|[A|[]]]]; try congruence; auto.
        - apply NoDup_snoc; auto.
        - intros i I. apply in_app_or in I. destruct I as [I|[<-|[]]]; auto. split; auto. eapply near_ok; eauto.
        - intros p c I. apply push_in in I. rewrite in_app_iff. destruct I as [I|(-> & I & _)]; [destruct (RQ p c (RI _ I)); auto|]. split; auto. right. left. auto.
        - intros before i after S0 NE. apply snoc_split in S0. destruct S0 as [(-> & -> & ->)|(after' & -> & CE)].
          + exists prev. auto.
          + destruct (RL before i after' CE NE) as (p & P1 & P2 & P3). exists p. split; auto. split; auto. rewrite !N1; auto.
            * intros ->. apply NC. rewrite CE. apply in_or_app. auto.
            * intros ->. apply NC. rewrite CE. apply in_or_app. right. left. auto.
        - intros i next I X. rewrite in_app_iff, push_in. destruct (ori0 next) eqn:OX; auto. right. apply in_app_or in I. destruct I as [I|[<-|[]]].
          + destruct (RP i next I X) as [A|[A|A]]; [congruence|auto|]. apply (Permutation_in _ P) in A. destruct A as [A|A]; auto. injection A as <- <-. left. right. left. auto.
          + destruct (mark ori cur next) eqn:M; auto. unfold mark in M. destruct (Nat.eqb_spec next cur) as [->|NE]; [left; right; left; auto|]. apply RM in M. destruct M as [M|M]; [congruence|auto]. }
      apply IH in E; auto. destruct E as (E1 & more & ->). split; auto. exists (cur :: more). rewrite <- app_assoc. auto.
Qed.
Variable most : nat.
Hypothesis near_most : forall i, (length (near i) <= most)%nat.
Lemma push_length : forall ori cur queue, (length (push near ori cur queue) <= length queue + most)%nat.
Proof.
  intros ori cur queue. unfold push. rewrite app_length. pose proof (near_most cur) as M. enough (length (flat_map (fun next => if ori next then [] else [(cur, next)]) (near cur)) <= length (near cur))%nat by lia.
  clear. induction (near cur) as [|x l IH]; cbn; auto. rewrite app_length. destruct (ori x); cbn; lia.
Qed.
Lemma spread_ends : forall fuel t nrm ori component queue, (forall p c, In (p, c) queue -> (c < n_points)%nat) -> (length queue + (most + 1) * free ori <= fuel)%nat ->
  exists t' nrm' ori' component', spread near pop fuel t nrm ori component queue = Some (t', nrm', ori', component').
Proof.
  induction fuel as [|fuel IH]; intros t nrm ori component queue QI F.
  - destruct queue as [|q queue]; [cbn; eauto 10|cbn in F; lia].
  - destruct queue as [|q0 queue0] eqn:EQ; [cbn; eauto 10|]. rewrite <- EQ in *.
    assert (spread near pop (S fuel) t nrm ori component queue =
      let j := Nat.modulo (pop t) (length queue) in
      let '(prev, cur) := nth j queue (0%nat, 0%nat) in
      let rest := firstn j queue ++ skipn (S j) queue in
      if ori cur then spread near pop fuel (S t) nrm ori component rest
      else
        let nrm' := if Rlt_dec (dot 3 (nrm cur) (nrm prev)) 0 then turn nrm cur else nrm in
        let ori' := mark ori cur in
        spread near pop fuel (S t) nrm' ori' (component ++ [cur]) (push near ori' cur rest)) as US by (rewrite EQ; reflexivity).
    rewrite US. clear US. cbv zeta. set (j := Nat.modulo (pop t) (length queue)) in *.
    assert (j < length queue)%nat as JL. { apply Nat.mod_upper_bound. rewrite EQ. discriminate. }
    pose proof (pick_perm j queue (0%nat, 0%nat) JL) as P. destruct (nth j queue (0%nat, 0%nat)) as [prev cur]. set (rest := firstn j queue ++ skipn (S j) queue) in *.
    pose proof (Permutation_length P) as PL. cbn [length] in PL.
    assert (forall x, In x rest -> In x queue) as RI by (intros x X; apply (Permutation_in _ (Permutation_sym P)); right; auto).
    assert (cur < n_points)%nat as CN by (apply (QI prev); apply (Permutation_in _ (Permutation_sym P)); left; auto).
    destruct (ori cur) eqn:OC.
    + apply IH; [intros p c I; apply (QI p); auto|lia].
    + apply IH.
      * intros p c I. apply push_in in I. destruct I as [I|(-> & I & _)]; [apply (QI p); auto|eapply near_ok; eauto].
      * pose proof (push_length (mark ori cur) cur rest) as PS. assert (free ori = S (free (mark ori cur))) as FR by (apply count_false_mark; auto; [apply seq_NoDup|apply in_seq; lia]). nia.
Qed.
End Spread.

Lemma highest_spec : forall l b, In (highest points b l) (b :: l) /\ forall i, In i (b :: l) -> points i 2%nat <= points (highest points b l) 2%nat.
Proof.
  induction l as [|x l IH]; intros b; cbn [highest].
  - split; [left; auto|]. intros i [<-|[]]. lra.
  - rewrite !dot_z. destruct (Rlt_dec (points b 2%nat) (points x 2%nat)) as [L|L].
    + destruct (IH x) as [A B]. split; [right; auto|]. intros i [<-|I]; [|auto]. specialize (B x (or_introl eq_refl)). lra.
    + destruct (IH b) as [A B]. split; [destruct A; [left|right; right]; auto|]. intros i [<-|[<-|I]]; [apply B; left; auto| |apply B; right; auto].
      specialize (B b (or_introl eq_refl)). lra.
Qed.

Variable given : nat -> vec3.
Definition good (nrm : nat -> vec3) (component earlier : list nat) : Prop :=
  component <> [] /\ linked near nrm component /\ faces_up points nrm component /\ closed_under near given component earlier.
Record between (nrm : nat -> vec3) (ori : nat -> bool) (components : list (list nat)) : Prop := {
  b_sign : forall i, kept_or_negated (nrm i) (given i);
  b_rest : forall i, ~ In i (concat components) -> nrm i = given i;
  b_marks : forall i, ori i = true <-> is_zero (given i) = true \/ In i (concat components);
  b_nodup : NoDup (concat components);
  b_new : forall i, In i (concat components) -> (i < n_points)%nat /\ is_zero (given i) = false;
  b_good : forall cs component cs', components = cs ++ component :: cs' -> good nrm component (concat cs) }.
Hypothesis near_ok : forall i next, In next (near i) -> (next < n_points)%nat.

Lemma linked_ext : forall nrm nrm' component, (forall i, In i component -> nrm' i = nrm i) -> linked near nrm component -> linked near nrm' component.
Proof.
  intros nrm nrm' component E L before i after C NE. destruct (L before i after C NE) as (p & P1 & P2 & P3). exists p. split; auto. split; auto.
  rewrite !E; auto; rewrite C; apply in_or_app; [auto|right; left; auto].
Qed.
Lemma linked_neg : forall nrm nrm' component, (forall i, In i component -> nrm' i = neg3 (nrm i)) -> linked near nrm component -> linked near nrm' component.
Proof.
  intros nrm nrm' component E L before i after C NE. destruct (L before i after C NE) as (p & P1 & P2 & P3). exists p. split; auto. split; auto.
  rewrite !E; [rewrite dot_neg2; auto| |]; rewrite C; apply in_or_app; [auto|right; left; auto].
Qed.
Lemma faces_ext : forall nrm nrm' component, (forall i, In i component -> nrm' i = nrm i) -> faces_up points nrm component -> faces_up points nrm' component.
Proof. intros nrm nrm' component E (h & H1 & H2 & H3). exists h. split; auto. split; auto. rewrite E; auto. Qed.
Lemma neg_neg : forall v, neg3 (neg3 v) = v.
Proof. intros v. unfold neg3. apply FunctionalExtensionality.functional_extensionality. intros. ring. Qed.

Lemma closed_loop_spec : forall rounds fuel t nrm ori components nrm' components', between nrm ori components ->
  closed_loop n_points points near pop rounds fuel t nrm ori components = Some (nrm', components') ->
  exists ori', between nrm' ori' components' /\ forall i, (i < n_points)%nat -> ori' i = true.
Proof.
  induction rounds as [|rounds IH]; intros fuel t nrm ori components nrm' components' B E; cbn [closed_loop] in E.
  - destruct (find (fun i => negb (ori i)) (seq 0 n_points)) eqn:F; [discriminate|]. injection E as <- <-. exists ori. split; auto. intros i I.
    apply find_none with (x := i) in F; [|apply in_seq; lia]. apply negb_false_iff in F. auto.
  - destruct (find (fun i => negb (ori i)) (seq 0 n_points)) as [cur|] eqn:F.
    2:{ injection E as <- <-. exists ori. split; auto. intros i I. apply find_none with (x := i) in F; [|apply in_seq; lia]. apply negb_false_iff in F. auto. }
    apply find_some in F. destruct F as [FI FO]. apply in_seq in FI. apply negb_true_iff in FO. cbv zeta in E.
    destruct (spread near pop fuel t nrm (mark ori cur) [cur] (push near (mark ori cur) cur [])) as [[[[t' n1] o1] comp]|] eqn:SP; [|discriminate].
    assert (running nrm ori nrm (mark ori cur) [cur] (push near (mark ori cur) cur [])) as R0.
    { constructor.
      - auto.
      - left. auto.
      - intros i. unfold mark. destruct (Nat.eqb_spec i cur) as [->|NE]; [cbn; tauto|]. split; [tauto|]. intros [A|[A|[]]]; [auto|congruence].
      - repeat constructor. intros [].
      - intros i [<-|[]]. split; auto. lia.
      - intros p c I. apply push_in in I. destruct I as [[]|(-> & I & _)]. split; [left; auto|auto].
      - intros before i after C NE. destruct before as [|b [|b2 before]]; [contradiction| |]; discriminate.
      - intros i next [<-|[]] X. rewrite push_in. destruct (mark ori cur next) eqn:M; [|auto 8]. unfold mark in M. destruct (Nat.eqb_spec next cur) as [->|NE]; [right; left; left; auto|auto]. }
    destruct (spread_spec nrm ori near_ok _ _ _ _ _ _ _ _ _ _ R0 SP) as [R1 (more & CM)]. destruct R1 as [RR RS RM RN RW RQ RL RP].
    destruct B as [BS BR BM BN BW BG].
    assert (comp = cur :: more) as CC by (rewrite CM; reflexivity).
    assert (forall i, In i comp -> ~ In i (concat components)) as DI. { intros i I J. destruct (RW i I) as [O _]. assert (ori i = true) by (apply BM; auto). congruence. }
    destruct (highest_spec more cur) as [H1 H2]. rewrite CC in E. cbn [tl] in E. rewrite <- CC in *. set (seed := highest points cur more) in *.
    set (n2 := if Rlt_dec (dot 3 (n1 seed) unit_z) 0 then turn_all n1 comp else n1) in *.
    assert (forall i, ~ In i comp -> n2 i = nrm i) as N2.
    { intros i I. unfold n2. destruct (Rlt_dec (dot 3 (n1 seed) unit_z) 0); [|auto]. unfold turn_all. destruct (existsb (Nat.eqb i) comp) eqn:X; [|auto].
      apply existsb_exists in X. destruct X as (y & Y & Z). apply Nat.eqb_eq in Z. subst y. contradiction. }
    assert ((forall i, In i comp -> n2 i = n1 i) /\ 0 <= n1 seed 2%nat \/ (forall i, In i comp -> n2 i = neg3 (n1 i)) /\ n1 seed 2%nat < 0) as N3.
    { unfold n2. rewrite dot_z. destruct (Rlt_dec (n1 seed 2%nat) 0) as [L|L]; [right|left; split; [auto|lra]]. split; auto. intros i I. unfold turn_all.
      destruct (existsb (Nat.eqb i) comp) eqn:X; auto. assert (existsb (Nat.eqb i) comp = true) by (apply existsb_exists; exists i; split; auto; apply Nat.eqb_refl). congruence. }
    apply IH in E; auto. clear IH E. constructor.
    + intros i. destruct (in_dec Nat.eq_dec i comp) as [I|I]; [|rewrite N2; auto].
      rewrite <- (BR i (DI i I)). destruct (RS i) as [A|A], N3 as [[N3 _]|[N3 _]]; rewrite (N3 i I), A; [left|right|right|left]; auto. apply neg_neg.
    + intros i I. rewrite concat_app, in_app_iff in I. cbn in I. rewrite app_nil_r in I. rewrite N2 by tauto. apply BR. tauto.
    + intros i. rewrite RM, BM. rewrite concat_app, in_app_iff. cbn. rewrite app_nil_r. tauto.
    + rewrite concat_app. cbn. rewrite app_nil_r. clear - BN RN DI. induction (concat components) as [|x l IH]; cbn; auto. inversion BN; subst. constructor.
      * rewrite in_app_iff. intros [A|A]; [auto|]. apply (DI x A). left. auto.
      * apply IH; auto. intros i I J. apply (DI i I). right. auto.
    + intros i. rewrite concat_app, in_app_iff. cbn. rewrite app_nil_r. intros [I|I]; auto. destruct (RW i I) as [O L]. split; auto.
      destruct (is_zero (given i)) eqn:Z; auto. assert (ori i = true) by (apply BM; auto). congruence.
    + intros cs c cs' CE. apply snoc_split in CE. destruct CE as [(-> & -> & ->)|(after' & -> & CE)].
      * unfold good. split; [rewrite CC; discriminate|]. split; [destruct N3 as [[N3 _]|[N3 _]]; [eapply linked_ext; eauto|eapply linked_neg; eauto]|]. split.
        -- exists seed. split; auto. split; auto. destruct N3 as [[N3 P3]|[N3 P3]]; rewrite N3; auto. unfold neg3. lra.
        -- intros i next I X Z. destruct (RP i next I X) as [A|[A|[]]]; auto. apply BM in A. destruct A as [A|A]; [congruence|auto].
      * destruct (BG _ _ _ CE) as (G1 & G2 & G3 & G4). assert (forall i, In i c -> n2 i = nrm i) as NI.
        { intros i I. apply N2. intros J. apply (DI i J). rewrite CE, concat_app. apply in_or_app. right. cbn. apply in_or_app. auto. }
        split; auto. split; [eapply linked_ext; eauto|]. split; [eapply faces_ext; eauto|auto].
Qed.
Theorem closed_spec : forall rounds fuel s s' components, given = normals s ->
  orient_closed_surface n_points points near pop rounds fuel s = Some (s', components) -> oriented n_points points near given (normals s') components /\ factors s' = factors s.
Proof.
  intros rounds fuel s s' components G E. unfold orient_closed_surface in E. rewrite <- G in E.
  destruct (closed_loop n_points points near pop rounds fuel 0 given (fun i => is_zero (given i)) []) as [[nrm cs]|] eqn:CL; [|discriminate]. injection E as <- <-. split; [|reflexivity]. cbn [normals].
  apply closed_loop_spec in CL.
  - destruct CL as (ori & [BS BR BM BN BW BG] & A). split; auto. split; [intros i Z; apply BR; intros I; apply BW in I; destruct I; congruence|]. split; auto. split; [|auto].
    intros i. split; auto. intros [L Z]. specialize (A i L). apply BM in A. destruct A; [congruence|auto].
  - constructor; auto.
    + left. auto.
    + intros i. cbn. tauto.
    + constructor.
    + intros i [].
    + intros cs0 c cs' C. destruct cs0; discriminate.
Qed.
Variable most : nat.
Hypothesis near_most : forall i, (length (near i) <= most)%nat.
Lemma closed_loop_ends : forall rounds fuel t nrm ori components, (free ori <= rounds)%nat -> ((most + 1) * (n_points + 1) <= fuel)%nat ->
  closed_loop n_points points near pop rounds fuel t nrm ori components <> None.
Proof.
  induction rounds as [|rounds IH]; intros fuel t nrm ori components FR FU; cbn [closed_loop].
  - destruct (find (fun i => negb (ori i)) (seq 0 n_points)) as [cur|] eqn:F; [|discriminate]. apply find_some in F. exfalso. unfold free in FR.
    destruct (filter (fun i => negb (ori i)) (seq 0 n_points)) eqn:L; [|cbn in FR; lia]. assert (In cur []) as X by (rewrite <- L; apply filter_In; auto). destruct X.
  - destruct (find (fun i => negb (ori i)) (seq 0 n_points)) as [cur|] eqn:F; [|discriminate]. apply find_some in F. destruct F as [FI FO]. apply negb_true_iff in FO. cbv zeta.
    assert (free ori = S (free (mark ori cur))) as FS by (apply count_false_mark; auto; apply seq_NoDup).
    assert (forall o, (free o <= n_points)%nat) as FN. { intros o. unfold free. rewrite <- (seq_length n_points 0) at 2. clear. induction (seq 0 n_points) as [|x l IH]; cbn; auto. destruct (negb (o x)); cbn; lia. }
    destruct (spread near pop fuel t nrm (mark ori cur) [cur] (push near (mark ori cur) cur [])) as [[[[t' n1] o1] comp]|] eqn:SP.
    + apply IH; auto. enough (free o1 <= free (mark ori cur))%nat by lia.
      clear - SP. assert (forall i, mark ori cur i = true -> o1 i = true) as MO.
      { revert SP. generalize (push near (mark ori cur) cur []) as queue. generalize [cur] as component. generalize (mark ori cur) as o. revert t nrm. clear.
        induction fuel as [|fuel IH]; intros t nrm o component queue SP i O.
        - destruct queue; cbn in SP; [|discriminate]. injection SP as <- <- <- <-. auto.
        - destruct queue as [|q queue]; cbn [spread] in SP; [injection SP as <- <- <- <-; auto|]. destruct (nth _ (q :: queue) (0%nat, 0%nat)) as [prev c] in SP. destruct (o c).
          + eapply IH; eauto.
          + eapply IH; [exact SP|]. unfold mark. destruct (Nat.eqb i c); auto. }
      unfold free. clear SP. induction (seq 0 n_points) as [|x l IHl]; cbn; auto. specialize (MO x). destruct (mark ori cur x), (o1 x); cbn; try lia; discriminate (MO eq_refl).
    + exfalso. destruct (spread_ends near_ok most near_most fuel t nrm (mark ori cur) [cur] (push near (mark ori cur) cur [])) as (a & b & c & d & X); [| |congruence].
      * intros p c I. apply push_in in I. destruct I as [[]|(_ & I & _)]. eapply near_ok; eauto.
      * pose proof (push_length most near_most (mark ori cur) cur []) as PS. cbn [length] in PS. specialize (FN (mark ori cur)). nia.
Qed.
Theorem closed_ends : forall s, exists s' components, orient_closed_surface n_points points near pop n_points ((most + 1) * (n_points + 1)) s = Some (s', components).
Proof.
  intros s. unfold orient_closed_surface.
  destruct (closed_loop n_points points near pop n_points ((most + 1) * (n_points + 1)) 0 (normals s) (fun i => is_zero (normals s i)) []) as [[nrm cs]|] eqn:E; [eauto|].
  exfalso. revert E. apply closed_loop_ends; auto. unfold free. rewrite <- (seq_length n_points 0) at 2. induction (seq 0 n_points) as [|x l IH]; cbn; auto. destruct (negb (is_zero (normals s x))); cbn; lia.
Qed.
End Closed.
