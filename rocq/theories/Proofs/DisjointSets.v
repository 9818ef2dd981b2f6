From Coq Require Import List Arith Bool Relations Permutation Lia.
From Verif Require Import Model.Outcome Model.DisjointSets Spec.DisjointSets.
Import ListNotations.

Lemma pat_ok : forall p i x, pat p i = Ok x <-> nth_error p i = Some x.
Proof. intros p i x. unfold pat. destruct (nth_error p i); split; intros H; congruence. Qed.

Lemma pset_spec : forall p i x, i < length p -> exists p', pset p i x = Ok p' /\
  length p' = length p /\ nth_error p' i = Some x /\ forall j, j <> i -> nth_error p' j = nth_error p j.
Proof.
  intros p i x L. unfold pset. destruct (nth_error p i) eqn:N; [|apply nth_error_None in N; lia].
  eexists. split; [reflexivity|]. clear N.
  revert i L. induction p as [|y p IH]; intros i L; cbn in L; [lia|].
  destruct i as [|i]; cbn [firstn skipn app].
  - split; auto. split; auto. intros [|j] J; [lia|auto].
  - destruct (IH i) as (A & B & C); [lia|]. split; [cbn in *; lia|]. split; [auto|].
    intros [|j] J; [auto|]. cbn. apply C. lia.
Qed.

(** [root p i r h]: following parents from [i] reaches the root [r] after [h] steps. *)
Inductive root (p : list nat) : nat -> nat -> nat -> Prop :=
| root_self : forall r, nth_error p r = Some r -> root p r r 0
| root_step : forall i j r h, nth_error p i = Some j -> j <> i -> root p j r h -> root p i r (S h).

Definition forest (p : list nat) : Prop := forall i, i < length p -> exists r h, root p i r h.

Lemma root_fun : forall p i r h, root p i r h -> forall r' h', root p i r' h' -> r' = r /\ h' = h.
Proof.
  induction 1 as [r H|i j r h H NE R IH]; intros r' h' R'; inversion R'; subst; auto; try congruence.
  assert (j0 = j) by congruence. subst j0. destruct (IH _ _ H2). auto.
Qed.

Lemma root_lt : forall p i r h, root p i r h -> i < length p /\ r < length p.
Proof.
  induction 1 as [r H|i j r h H NE R IH].
  - assert (r < length p) by (apply nth_error_Some; congruence). auto.
  - split; [|tauto]. apply nth_error_Some. congruence.
Qed.

Lemma root_root : forall p i r h, root p i r h -> root p r r 0.
Proof. induction 1; auto. constructor. auto. Qed.

(** Heights are below the number of indices: the nodes on the way are distinct. *)
Lemma root_path : forall p i r h, root p i r h ->
  exists l, length l = S h /\ NoDup l /\ (forall x, In x l -> x < length p) /\
            (forall x, In x l -> exists h', h' <= h /\ root p x r h').
Proof.
  induction 1 as [r H|i j r h H NE R IH].
  - exists [r]. split; auto. split; [constructor; auto; constructor|]. split.
    + intros x [<-|[]]. apply nth_error_Some. congruence.
    + intros x [<-|[]]. exists 0. split; auto. constructor. auto.
  - destruct IH as (l & L & ND & B & RH). exists (i :: l). split; [cbn; lia|].
    assert (root p i r (S h)) as RI by (econstructor; eauto). split; [|split].
    + constructor; auto. intros I. destruct (RH i I) as (h' & H' & R').
      destruct (root_fun _ _ _ _ RI _ _ R'). lia.
    + intros x [<-|I]; auto. apply (root_lt _ _ _ _ RI).
    + intros x [<-|I]; [exists (S h); auto|]. destruct (RH x I) as (h' & H' & R'). exists h'. auto.
Qed.

Lemma root_height : forall p i r h, root p i r h -> h < length p.
Proof.
  intros p i r h R. destruct (root_path _ _ _ _ R) as (l & L & ND & B & _).
  assert (length l <= length (seq 0 (length p))) as Q.
  { apply NoDup_incl_length; auto. intros x I. apply in_seq. apply B in I. lia. }
  rewrite seq_length in Q. lia.
Qed.

(** Path halving keeps all roots. *)
Lemma halve_root : forall p p' i j k, nth_error p i = Some j -> j <> i -> nth_error p j = Some k ->
  nth_error p' i = Some k -> (forall x, x <> i -> nth_error p' x = nth_error p x) ->
  forall h x r, root p x r h -> exists h', h' <= h /\ root p' x r h'.
Proof.
  intros p p' i j k I NE J I' O.
  induction h as [h IH] using (well_founded_induction lt_wf). intros x r R.
  destruct (Nat.eq_dec x i) as [->|NX].
  - inversion R as [|? j0 ? h0 Hj _ Rj]; subst; [congruence|]. assert (j0 = j) by congruence. subst j0.
    inversion Rj as [? Hr|? k0 ? h1 Hk _ Rk]; subst.
    + assert (k = r) by congruence. subst k. exists 1. split; [lia|].
      econstructor; eauto. constructor. rewrite O; auto.
    + assert (k0 = k) by congruence. subst k0.
      destruct (Nat.eq_dec k i) as [->|N].
      { destruct (root_fun _ _ _ _ R _ _ Rk). lia. }
      destruct (IH h1) with (x := k) (r := r) as (h' & L & R'); [lia|auto|].
      exists (S h'). split; [lia|]. econstructor; eauto.
  - inversion R as [? Hr|? j0 ? h0 Hj ? Rj]; subst.
    + exists 0. split; auto. constructor. rewrite O; auto.
    + destruct (IH h0) with (x := j0) (r := r) as (h' & L & R'); [lia|auto|].
      exists (S h'). split; [lia|]. econstructor; eauto. rewrite O; auto.
Qed.

(** [p'] has the same size and the same roots as [p]. *)
Definition same_roots (p p' : list nat) : Prop :=
  length p' = length p /\ forall x r h, root p x r h -> exists h', root p' x r h'.

Lemma same_roots_refl : forall p, same_roots p p.
Proof. intros p. split; eauto. Qed.
Lemma same_roots_trans : forall p q s, same_roots p q -> same_roots q s -> same_roots p s.
Proof.
  intros p q s [L1 R1] [L2 R2]. split; [congruence|]. intros x r h H.
  destruct (R1 x r h H) as (h1 & H1). eauto.
Qed.
Lemma same_roots_forest : forall p q, same_roots p q -> forest p -> forest q.
Proof.
  intros p q [L R] F i I. rewrite L in I. destruct (F i I) as (r & h & H). destruct (R i r h H). eauto.
Qed.

Lemma find_spec : forall fuel p i r h, root p i r h -> h < fuel ->
  exists p', find fuel p i = Ok (Some (r, p')) /\ same_roots p p'.
Proof.
  induction fuel as [|fuel IH]; intros p i r h R F; [lia|]. cbn [find].
  inversion R as [? Hr|? j ? h0 Hj NE Rj]; subst.
  - unfold pat at 1. rewrite Hr. cbn [bind]. rewrite Nat.eqb_refl. exists p. split; auto. apply same_roots_refl.
  - unfold pat at 1. rewrite Hj. cbn [bind]. rewrite (proj2 (Nat.eqb_neq _ _) NE).
    assert (exists k hk, nth_error p j = Some k /\ root p k r hk /\ hk < S h0) as (k & hk & K & Rk & Lk).
    { inversion Rj as [? Hr|? k ? h1 Hk _ Rk]; subst.
      - exists r, 0. split; [auto|]. split; [auto|lia].
      - exists k, h1. split; auto. }
    unfold pat at 1. rewrite K. cbn [bind].
    destruct (pset_spec p i k) as (p' & -> & L & I' & O); [apply (root_lt _ _ _ _ R)|]. cbn [bind].
    unfold pat at 1. rewrite I'. cbn [bind].
    pose proof (halve_root p p' i j k Hj NE K I' O) as HR.
    destruct (HR hk k r Rk) as (h' & Lh & R').
    destruct (IH p' k r h' R') as (p'' & -> & SR); [lia|].
    exists p''. split; auto. eapply same_roots_trans; [|exact SR].
    split; auto. intros x r0 hx Hx. destruct (HR hx x r0 Hx) as (h2 & _ & H2). eauto.
Qed.

Lemma find_total : forall p i, forest p -> i < length p ->
  exists r h p', root p i r h /\ find (length p) p i = Ok (Some (r, p')) /\ same_roots p p'.
Proof.
  intros p i F I. destruct (F i I) as (r & h & R).
  destruct (find_spec (length p) p i r h R (root_height _ _ _ _ R)) as (p' & P & S0). eauto 6.
Qed.

(** Redirecting one root. *)
Lemma redirect_root : forall p p' a b, nth_error p a = Some a -> nth_error p b = Some b ->
  nth_error p' a = Some b -> (forall x, x <> a -> nth_error p' x = nth_error p x) ->
  forall x r h, root p x r h -> exists h', root p' x (if Nat.eqb r a then b else r) h'.
Proof.
  intros p p' a b A B A' O x r h R. induction R as [r H|i j r h H NE R IH].
  - destruct (Nat.eqb_spec r a) as [->|N].
    + destruct (Nat.eq_dec b a) as [->|NB]; [exists 0; constructor; auto|].
      exists 1. econstructor; eauto. constructor. rewrite O; auto.
    + exists 0. constructor. rewrite O; auto.
  - destruct IH as (h' & IH). exists (S h'). econstructor; eauto. rewrite O; auto. intros ->. congruence.
Qed.

(** ** Histories *)

(** The roots of [p] represent exactly the classes of [es]. *)
Definition represents (es : list (nat * nat)) (n : nat) (p : list nat) : Prop :=
  length p = n /\ forest p /\ (forall i j, In (i, j) es -> i < n /\ j < n) /\
  (forall i j r s hi hj, root p i r hi -> root p j s hj -> (joined es i j <-> r = s)).

Lemma represents_same : forall es n p q, represents es n p -> same_roots p q -> represents es n q.
Proof.
  intros es n p q (L & F & B & J) SR. split; [destruct SR; congruence|]. split; [eapply same_roots_forest; eauto|].
  split; [auto|].
  intros i j r s hi hj Ri Rj. destruct SR as [LQ SR].
  destruct (F i) as (r' & h1 & R1); [rewrite <- LQ; apply (root_lt _ _ _ _ Ri)|].
  destruct (F j) as (s' & h2 & R2); [rewrite <- LQ; apply (root_lt _ _ _ _ Rj)|].
  destruct (SR _ _ _ R1) as (h3 & R3). destruct (SR _ _ _ R2) as (h4 & R4).
  destruct (root_fun _ _ _ _ Ri _ _ R3) as [-> _]. destruct (root_fun _ _ _ _ Rj _ _ R4) as [-> _]. eauto.
Qed.

Lemma joined_mono : forall es fs i j, incl es fs -> joined es i j -> joined fs i j.
Proof.
  intros es fs i j I H. induction H.
  - apply rst_step. auto.
  - apply rst_refl.
  - apply rst_sym. auto.
  - eapply rst_trans; eauto.
Qed.

Lemma joined_range : forall es n i j, (forall i j, In (i, j) es -> i < n /\ j < n) -> joined es i j ->
  i = j \/ (i < n /\ j < n).
Proof.
  intros es n i j B H. induction H as [u v H|u|u v H IH|u v w H1 IH1 H2 IH2]; auto.
  - intuition auto.
  - destruct IH1 as [->|[]]; auto. destruct IH2 as [->|[]]; auto.
Qed.

Lemma joined_nil : forall i j, joined [] i j -> i = j.
Proof. intros i j H. induction H; auto; [contradiction|congruence]. Qed.

Lemma represents_init : forall n, represents [] n (ds_init n).
Proof.
  intros n.
  assert (forall x, x < n -> root (ds_init n) x x 0) as R0.
  { intros x I. constructor. unfold ds_init. rewrite nth_error_nth' with (d := 0) by (rewrite seq_length; auto).
    rewrite seq_nth; auto. }
  unfold represents, forest. rewrite (seq_length n 0 : length (ds_init n) = n). split; [auto|]. split; [eauto|]. split; [intros i j []|].
  intros i j r s hi hj Ri Rj. pose proof (root_lt _ _ _ _ Ri) as [Li _]. pose proof (root_lt _ _ _ _ Rj) as [Lj _].
  rewrite (seq_length n 0 : length (ds_init n) = n) in Li, Lj.
  destruct (root_fun _ _ _ _ (R0 i Li) _ _ Ri) as [-> _]. destruct (root_fun _ _ _ _ (R0 j Lj) _ _ Rj) as [-> _].
  split; [apply joined_nil|]. intros ->. apply rst_refl.
Qed.

Lemma unite_spec : forall es n p i j, represents es n p -> i < n -> j < n ->
  exists p', unite n p i j = Ok (Some p') /\ represents (es ++ [(i, j)]) n p'.
Proof.
  intros es n p i j RP I J. pose proof RP as (L & F & _). unfold unite.
  destruct (find_total p j F) as (rj & hj & p1 & Rj & F1 & S1); [lia|]. rewrite L in F1. rewrite F1. cbn [bind].
  pose proof (represents_same _ _ _ _ RP S1) as RP1. pose proof RP1 as (L1 & FF1 & _).
  destruct (find_total p1 i FF1) as (ri & hi & p2 & Ri & F2 & S2); [lia|]. rewrite L1 in F2. rewrite F2. cbn [bind].
  pose proof (represents_same _ _ _ _ RP1 S2) as (L2 & FF2 & B2 & J2).
  destruct (proj2 S1 _ _ _ Rj) as (hj1 & Rj1). destruct (proj2 S2 _ _ _ Rj1) as (hj2 & Rj2).
  destruct (proj2 S2 _ _ _ Ri) as (hi2 & Ri2).
  destruct (pset_spec p2 ri rj) as (p3 & P3 & L3 & A & O); [apply (root_lt _ _ _ _ Ri2)|]. rewrite P3. cbn [bind].
  exists p3. split; auto.
  assert (nth_error p2 ri = Some ri) as RR by (pose proof (root_root _ _ _ _ Ri2) as Q; inversion Q; auto).
  assert (nth_error p2 rj = Some rj) as RS by (pose proof (root_root _ _ _ _ Rj2) as Q; inversion Q; auto).
  pose proof (redirect_root p2 p3 ri rj RR RS A O) as RD.
  assert (forall a b, In (a, b) (es ++ [(i, j)]) -> a < n /\ b < n) as B3.
  { intros a b H. apply in_app_iff in H. destruct H as [H|[H|[]]]; [auto|]. injection H as <- <-. auto. }
  split; [congruence|]. split; [|split; [exact B3|]].
  - intros x X. destruct (FF2 x) as (r & h & R); [lia|]. destruct (RD _ _ _ R) as (h' & R'). eauto.
  - assert (forall x r h, root p3 x r h -> exists r0 h0, root p2 x r0 h0 /\ r = if Nat.eqb r0 ri then rj else r0) as BK.
    { intros x r h R. destruct (FF2 x) as (r0 & h0 & R0); [rewrite <- L3; apply (root_lt _ _ _ _ R)|].
      destruct (RD _ _ _ R0) as (h' & R'). destruct (root_fun _ _ _ _ R' _ _ R) as [-> _]. eauto. }
    assert (joined (es ++ [(i, j)]) i j) as JIJ by (apply rst_step, in_app_iff; right; left; auto).
    assert (forall x y, joined es x y -> joined (es ++ [(i, j)]) x y) as MONO.
    { intros x y. apply joined_mono. intros z Z. apply in_app_iff. auto. }
    intros x y r s hx hy Rx Ry.
    destruct (BK _ _ _ Rx) as (rx & hx0 & Rx0 & ->). destruct (BK _ _ _ Ry) as (ry & hy0 & Ry0 & ->). split.
    + intros JN.
      assert (forall u v, joined (es ++ [(i, j)]) u v -> forall ru rv hu hv, root p2 u ru hu -> root p2 v rv hv ->
              (if Nat.eqb ru ri then rj else ru) = (if Nat.eqb rv ri then rj else rv)) as G.
      2:{ eapply G; eauto. }
      clear - J2 FF2 Ri2 Rj2 L2 I J B3.
      (* the relation "redirected roots agree" is an equivalence containing the pairs *)
      intros u v H. induction H as [u v H|u|u v H IH|u v w H1 IH1 H2 IH2]; intros ru rv hu hv Ru Rv.
      * apply in_app_iff in H. destruct H as [H|[H|[]]].
        -- assert (ru = rv) as -> by (apply (J2 _ _ _ _ _ _ Ru Rv); apply rst_step; auto). auto.
        -- injection H as <- <-. destruct (root_fun _ _ _ _ Ri2 _ _ Ru) as [-> _].
           destruct (root_fun _ _ _ _ Rj2 _ _ Rv) as [-> _]. rewrite Nat.eqb_refl.
           destruct (Nat.eqb rj ri); auto.
      * destruct (root_fun _ _ _ _ Ru _ _ Rv) as [-> _]. auto.
      * symmetry. eauto.
      * destruct (Nat.lt_ge_cases v (length p2)) as [V|V].
        -- destruct (FF2 v V) as (r & h & R). rewrite (IH1 _ _ _ _ Ru R). eauto.
        -- destruct (joined_range _ n _ _ B3 H1) as [->|[_ Q]]; [|lia]. eauto.
    + intros EQ.
      assert (joined es x y \/ (rx = ri /\ ry = rj) \/ (rx = rj /\ ry = ri)) as C.
      { destruct (Nat.eqb_spec rx ri), (Nat.eqb_spec ry ri); subst.
        - left. eapply J2; eauto.
        - right. left. auto.
        - right. right. auto.
        - left. eapply J2; eauto. }
      destruct C as [C|[[-> ->]|[-> ->]]]; [auto| |].
      * eapply rst_trans; [apply MONO; eapply (J2 x i); eauto|].
        eapply rst_trans; [exact JIJ|]. apply MONO. eapply (J2 j y); eauto.
      * eapply rst_trans; [apply MONO; eapply (J2 x j); eauto|].
        eapply rst_trans; [apply rst_sym; exact JIJ|]. apply MONO. eapply (J2 i y); eauto.
Qed.

Lemma unite_all_spec : forall es ds n p, represents ds n p -> (forall i j, In (i, j) es -> i < n /\ j < n) ->
  exists p', unite_all n p es = Ok (Some p') /\ represents (ds ++ es) n p'.
Proof.
  induction es as [|[i j] es IH]; intros ds n p RP B; cbn [unite_all].
  - exists p. rewrite app_nil_r. auto.
  - destruct (B i j (or_introl eq_refl)) as [I J].
    destruct (unite_spec ds n p i j RP I J) as (p' & -> & RP'). cbn [bind].
    destruct (IH _ n p' RP') as (p'' & -> & RP''); [intros; apply B; right; auto|].
    exists p''. rewrite <- app_assoc in RP''. auto.
Qed.

(** ** groups() *)

(** The groups so far: distinct roots; members have that root; all visited indices are members. *)
Definition grouped (p : list nat) (res : list (nat * list nat)) (seen : list nat) : Prop :=
  NoDup (map fst res) /\ Permutation (concat (map snd res)) seen /\
  Forall (fun g => snd g <> []) res /\
  forall r ms i, In (r, ms) res -> In i ms -> exists h, root p i r h.

Lemma add_member_spec : forall res root i,
  Permutation (concat (map snd (add_member res root i))) (i :: concat (map snd res)) /\
  (forall r ms, In (r, ms) (add_member res root i) ->
     In (r, ms) res \/ (r = root /\ exists ms0, ms = i :: ms0 /\ (In (root, ms0) res \/ ms0 = []))) /\
  (forall r, In r (map fst (add_member res root i)) <-> r = root \/ In r (map fst res)) /\
  (NoDup (map fst res) -> NoDup (map fst (add_member res root i))).
Proof.
  induction res as [|[r ms] res IH]; intros root i; cbn [add_member].
  - cbn. split; auto. split; [|split].
    + intros r ms [H|[]]. injection H as <- <-. right. split; auto. exists []. auto.
    + intros r. intuition auto.
    + intros _. constructor; auto. constructor.
  - destruct (IH root i) as (P & M & F & N). destruct (Nat.eqb_spec r root) as [->|NE]; cbn.
    + split; auto. split; [|split].
      * intros r ms' [H|H]; [injection H as <- <-|]; eauto 8.
      * intros r. intuition auto.
      * auto.
    + split; [|split; [|split]].
      * rewrite P. symmetry. apply Permutation_middle.
      * intros r' ms' [H|H]; [auto|]. destruct (M _ _ H) as [|(-> & ms0 & -> & [|])]; eauto 8.
      * intros r'. rewrite F. intuition auto.
      * intros ND. inversion ND; subst. constructor; auto. rewrite F. intuition auto.
Qed.

Lemma add_member_grouped : forall p res seen r i h, grouped p res seen -> root p i r h ->
  grouped p (add_member res r i) (seen ++ [i]).
Proof.
  intros p res seen r i h (ND & P & NE & M) R. destruct (add_member_spec res r i) as (P' & M' & _ & N').
  split; [auto|]. split; [|split].
  - rewrite P', P. apply Permutation_cons_append.
  - apply Forall_forall. intros [r' ms] I. destruct (M' _ _ I) as [J|(_ & ms0 & -> & _)]; [|discriminate].
    rewrite Forall_forall in NE. apply (NE _ J).
  - intros r' ms j I J. destruct (M' _ _ I) as [K|(-> & ms0 & -> & K)]; [eauto|].
    destruct J as [<-|J]; [eauto|]. destruct K as [K| ->]; [eauto|destruct J].
Qed.

Lemma groups_from_spec : forall is n p res seen, length p = n -> forest p -> grouped p res seen ->
  (forall i, In i is -> i < n) ->
  exists res' p', groups_from n p res is = Ok (Some (map (fun g => rev (snd g)) res', p')) /\
    grouped p' res' (seen ++ is) /\ same_roots p p'.
Proof.
  induction is as [|i is IH]; intros n p res seen L F G B; cbn [groups_from].
  - exists res, p. rewrite app_nil_r. split; auto. split; auto. apply same_roots_refl.
  - destruct (find_total p i F) as (r & h & p1 & R & F1 & S1).
    { rewrite L. apply B. left; auto. }
    rewrite L in F1. rewrite F1. cbn [bind].
    destruct (IH n p1 (add_member res r i) (seen ++ [i])) as (res' & p' & E & G' & S').
    + destruct S1; congruence.
    + eapply same_roots_forest; eauto.
    + pose proof (add_member_grouped _ _ _ _ _ _ G R) as (A1 & A2 & A3 & A4).
      split; auto. split; auto. split; auto. intros r' ms j X Y. destruct (A4 _ _ _ X Y) as (h' & Q).
      apply (proj2 S1 _ _ _ Q).
    + intros j J. apply B. right; auto.
    + exists res', p'. rewrite <- app_assoc in G'. split; auto. split; auto. eapply same_roots_trans; eauto.
Qed.

Lemma concat_rev_perm : forall (res : list (nat * list nat)),
  Permutation (concat (map (fun g => rev (snd g)) res)) (concat (map snd res)).
Proof.
  induction res as [|[r ms] res IH]; cbn; auto. apply Permutation_app; auto. symmetry. apply Permutation_rev.
Qed.

Lemma union_find : forall es n, (forall i j, In (i, j) es -> i < n /\ j < n) ->
  exists p gs p', unite_all n (ds_init n) es = Ok (Some p) /\ groups n p = Ok (Some (gs, p')) /\
                  classes es n gs.
Proof.
  intros es n B. destruct (unite_all_spec es [] n _ (represents_init n) B) as (p & U & RP). cbn in RP.
  pose proof RP as (L & F & _).
  destruct (groups_from_spec (seq 0 n) n p [] [] L F) as (res & p' & G & GR & SR).
  { split; [constructor|]. split; [constructor|]. split; [constructor|]. intros r ms i []. }
  { intros i I. apply in_seq in I. lia. }
  exists p. eexists. exists p'. split; auto. split.
  { unfold groups. rewrite L. exact G. }
  cbn in GR. destruct GR as (ND & P & NE & M).
  pose proof (represents_same _ _ _ _ RP SR) as (L' & F' & _ & J).
  split; [|split].
  - rewrite concat_rev_perm. auto.
  - apply Forall_forall. intros g I. apply in_map_iff in I. destruct I as ([r ms] & <- & I).
    rewrite Forall_forall in NE. intros Q. apply (NE _ I). cbn in *. rewrite <- (rev_involutive ms), Q. auto.
  - intros i j Hi Hj.
    assert (forall x, x < n -> exists r ms h, In (r, ms) res /\ In x ms /\ root p' x r h) as C.
    { intros x X. assert (In x (concat (map snd res))) as I.
      { apply (Permutation_in _ (Permutation_sym P)). apply in_seq. lia. }
      apply in_concat in I. destruct I as (ms & I & K). apply in_map_iff in I. destruct I as ([r ms'] & <- & I).
      destruct (M _ _ _ I K) as (h & R). exists r, ms', h. auto. }
    split.
    + intros JN. destruct (C i Hi) as (r & ms & h & I & K & R). destruct (C j Hj) as (r' & ms' & h' & I' & K' & R').
      assert (r = r') by (eapply J; eauto). subst r'.
      assert (ms = ms') as <-.
      { clear - ND I I'. induction res as [|[a b] res IH]; [destruct I|]. cbn in ND. inversion ND; subst.
        destruct I as [I|I], I' as [I'|I']; try congruence; auto.
        - injection I as -> ->. exfalso. apply H1. apply in_map_iff. exists (r, ms'). auto.
        - injection I' as -> ->. exfalso. apply H1. apply in_map_iff. exists (r, ms). auto. }
      exists (rev ms). split; [apply in_map_iff; exists (r, ms); auto|]. rewrite <- !in_rev. auto.
    + intros (g & I & K1 & K2). apply in_map_iff in I. destruct I as ([r ms] & <- & I). cbn in K1, K2.
      rewrite <- in_rev in K1, K2. destruct (M _ _ _ I K1) as (h1 & R1). destruct (M _ _ _ I K2) as (h2 & R2).
      eapply J; eauto.
Qed.
