From Coq Require Import List Arith ZArith Bool Lia.
From Verif Require Import Model.Outcome Model.Interpolant Spec.Interpolant.
Import ListNotations.

Section Proofs.

Context {Pt D Box M : Type}.
Variable E : env Pt D Box M.
Notation state := (state Pt D Box M).
Notation fit_call := (fit_call Pt D Box M).
Notation op := (op Pt D Box M).

(** ** build_initial_weights *)

Lemma find_from_spec : forall (ps : list Pt) p i,
  match find_from E i ps p with
  | Some j => exists k q, j = i + k /\ nth_error ps k = Some q /\ peqb E p q = true /\
                (forall k' q', k' < k -> nth_error ps k' = Some q' -> peqb E p q' = false)
  | None => forall q, In q ps -> peqb E p q = false
  end.
Proof.
  induction ps as [|q ps IH]; intros p i; cbn.
  - intros q [].
  - destruct (peqb E p q) eqn:Q.
    + exists 0, q. repeat split; auto; intros; lia.
    + specialize (IH p (S i)). destruct (find_from E (S i) ps p).
      * destruct IH as (k & q' & -> & N & P & F). exists (S k), q'. repeat split; auto; try lia.
        intros [|k'] q'' L N''; cbn in N''.
        -- injection N'' as <-. auto.
        -- eapply F; eauto. lia.
      * intros q' [<-|I]; auto.
Qed.

Lemma segment_ok : forall (w : list D) off len s, segment w off len = Ok s ->
  s = firstn len (skipn off w) /\ length s = len.
Proof.
  intros w off len s. unfold segment.
  destruct (Nat.leb_spec (off + len) (length w)); intros H'; [|discriminate].
  injection H' as <-. split; auto. rewrite firstn_length, skipn_length. lia.
Qed.

Lemma assign_mid : forall (pre old seg post : list D), length old = length seg ->
  assign (pre ++ old ++ post) (length pre) seg = Ok (pre ++ seg ++ post).
Proof.
  intros. unfold assign. rewrite !app_length.
  destruct (Nat.leb_spec (length pre + length seg) (length pre + (length old + length post))); [|lia].
  f_equal. rewrite firstn_app, Nat.sub_diag, firstn_all, firstn_O, app_nil_r.
  f_equal. f_equal. rewrite app_assoc, <- H, <- app_length, skipn_app, Nat.sub_diag, skipn_all.
  reflexivity.
Qed.

Lemma repeat_plus : forall {A} (x : A) n m, repeat x (n + m) = repeat x n ++ repeat x m.
Proof. intros. apply repeat_app. Qed.

Lemma map_weights_ok : forall width base ini_base ini_ps iw ps i pre post w',
  length pre = base + width * i ->
  map_weights E width base ini_base i ps ini_ps (Ok iw)
    (pre ++ repeat (dzero E) (width * length ps) ++ post) = Ok w' ->
  exists blocks, Forall2 (inherits E width ini_base ini_ps iw) ps blocks /\
    w' = pre ++ concat blocks ++ post /\ length (concat blocks) = width * length ps.
Proof.
  induction ps as [|p ps IH]; intros i pre post w' L H.
  - cbn in H. rewrite Nat.mul_0_r in H. cbn in H. injection H as <-.
    exists []. repeat split; auto; cbn; lia.
  - cbn [map_weights length] in H.
    replace (width * S (length ps)) with (width + width * length ps) in H by lia.
    rewrite repeat_plus, <- app_assoc in H.
    pose proof (find_from_spec ini_ps p 0) as F.
    destruct (find_from E 0 ini_ps p) as [j|].
    + destruct F as (k & q & -> & N & P & F). cbn [bind Nat.add] in H.
      destruct (segment iw (ini_base + width * k) width) as [seg| |] eqn:S; cbn [bind] in H;
        try discriminate.
      apply segment_ok in S. destruct S as [S1 S2].
      rewrite <- L in H. rewrite assign_mid in H by (rewrite repeat_length; lia).
      cbn [bind] in H. rewrite app_assoc in H.
      apply IH in H; [|rewrite app_length; lia].
      destruct H as (bs & F2 & -> & LB). exists (seg :: bs). split; [|split].
      * constructor; auto. left. exists k, q. auto.
      * cbn. rewrite <- !app_assoc. reflexivity.
      * cbn. rewrite app_length. lia.
    + cbn [bind] in H. rewrite app_assoc in H.
      apply IH in H; [|rewrite app_length, repeat_length; lia].
      destruct H as (bs & F2 & -> & LB). exists (repeat (dzero E) width :: bs). split; [|split].
      * constructor; auto. right. auto.
      * cbn. rewrite <- !app_assoc. reflexivity.
      * cbn. rewrite app_length, repeat_length. lia.
Qed.

Lemma map_weights_no_throw : forall width base ini_base ini_ps iw ps i w e,
  map_weights E width base ini_base i ps ini_ps (Ok iw) w <> Throw e.
Proof.
  induction ps as [|p ps IH]; intros i w e H; cbn in H; [discriminate|].
  destruct (find_from E 0 ini_ps p) as [j|]; cbn in H.
  - unfold segment, assign in H.
    destruct (Nat.leb (ini_base + width * j + width) (length iw)); cbn in H; try discriminate.
    destruct (Nat.leb _ _); cbn in H; try discriminate. eapply IH; eauto.
  - eapply IH; eauto.
Qed.

Lemma map_weights_unfitted : forall width base ini_base ini_ps e ps i w,
  map_weights E width base ini_base i ps ini_ps (Throw e) w = Ok w \/
  map_weights E width base ini_base i ps ini_ps (Throw e) w = Throw e.
Proof.
  induction ps as [|p ps IH]; intros i w; cbn; auto.
  destruct (find_from E 0 ini_ps p); cbn; auto.
Qed.

Lemma build_differ : forall (s : state) p g ini, meqb E (model_ s) (model_ ini) = false ->
  build_initial_weights E s false p g ini
  = Ok (repeat (dzero E) (length p + dim E * length g + basis_size E (model_ s))).
Proof. intros. unfold build_initial_weights. rewrite H. reflexivity. Qed.

Lemma build_unfitted : forall (s : state) same p g ini,
  same || meqb E (model_ s) (model_ ini) = true -> fitted ini = false ->
  build_initial_weights E s same p g ini = Throw ExRuntimeError.
Proof.
  intros s same p g ini H F. unfold build_initial_weights. rewrite H. cbn [negb].
  unfold weights, guarded. rewrite F.
  set (w0 := repeat _ _).
  destruct (map_weights_unfitted 1 0 0 (centers_ ini) ExRuntimeError p 0 w0) as [Y|Y];
    rewrite Y; cbn [bind]; auto.
  destruct (map_weights_unfitted (dim E) (length p) (length (centers_ ini)) (grads_ ini)
              ExRuntimeError g 0 w0) as [Z|Z]; rewrite Z; cbn [bind]; auto.
Qed.

Lemma build_fitted_no_throw : forall (s : state) same p g ini e, fitted ini = true ->
  build_initial_weights E s same p g ini <> Throw e.
Proof.
  intros s same p g ini e F. unfold build_initial_weights.
  destruct (negb _); [discriminate|].
  unfold weights, guarded. rewrite F. cbn [bind].
  destruct (map_weights E 1 0 0 0 p _ _ _) eqn:X1; cbn [bind]; try discriminate.
  2:{ exfalso. eapply map_weights_no_throw; eauto. }
  destruct (map_weights E (dim E) _ _ 0 g _ _ _) eqn:X2; cbn [bind]; try discriminate.
  2:{ exfalso. eapply map_weights_no_throw; eauto. }
  unfold segment. destruct (Nat.leb _ _); cbn [bind]; try discriminate.
  unfold assign. destruct (Nat.leb _ _); discriminate.
Qed.

Lemma build_same : forall (s : state) same p g ini w,
  same || meqb E (model_ s) (model_ ini) = true -> fitted ini = true ->
  build_initial_weights E s same p g ini = Ok w ->
  starts_from E (model_ s) p g (mk_data (centers_ ini) (grads_ ini) (bbox_ ini) (weights_ ini)) w
  /\ length w = length p + dim E * length g + basis_size E (model_ s).
Proof.
  intros s same p g ini w H F. unfold build_initial_weights. rewrite H. cbn [negb].
  unfold weights, guarded. rewrite F.
  set (l := basis_size E (model_ s)).
  intros B.
  destruct (map_weights E 1 0 0 0 p _ _ _) as [w1| |] eqn:X1; cbn [bind] in B; try discriminate.
  replace (repeat (dzero E) (length p + dim E * length g + l))
    with ([] ++ repeat (dzero E) (1 * length p) ++ repeat (dzero E) (dim E * length g + l)) in X1.
  2:{ cbn [app]. rewrite <- repeat_plus. f_equal. lia. }
  apply map_weights_ok in X1; [|reflexivity].
  destruct X1 as (pb & F1 & -> & L1).
  destruct (map_weights E (dim E) _ _ 0 g _ _ _) as [w2| |] eqn:X2; cbn [bind] in B;
    try discriminate.
  rewrite repeat_plus in X2. cbn [app] in X2.
  apply map_weights_ok in X2; [|lia].
  destruct X2 as (gb & F2 & -> & L2).
  destruct (segment _ _ l) as [seg| |] eqn:S; cbn [bind] in B; try discriminate.
  pose proof S as S'. apply segment_ok in S. destruct S as [S1 S2].
  assert (length p + dim E * length g = length (concat pb ++ concat gb)) as LL
    by (rewrite app_length; lia).
  rewrite LL in B.
  rewrite app_assoc in B. rewrite <- (app_nil_r (repeat (dzero E) l)) in B.
  rewrite assign_mid in B by (rewrite repeat_length; lia).
  rewrite app_nil_r in B. injection B as <-.
  assert (length (weights_ ini) >= l) as GE.
  { unfold segment in S'. destruct (Nat.leb_spec (length (weights_ ini) - l + l) (length (weights_ ini))); try discriminate. lia. }
  split.
  - exists pb, gb. cbn [d_centers d_grads d_weights]. split; [exact F1|]. split; [exact F2|].
    rewrite <- app_assoc. f_equal. f_equal. fold l. rewrite S1.
    apply firstn_all2. rewrite skipn_length. lia.
  - rewrite !app_length. lia.
Qed.

(** Sizes that rule out undefined behaviour. *)
Lemma segment_defined : forall (w : list D) off len, off + len <= length w ->
  segment w off len = Ok (firstn len (skipn off w)).
Proof. intros. unfold segment. destruct (Nat.leb_spec (off + len) (length w)); auto; lia. Qed.

Lemma map_weights_defined : forall width base ini_base ini_ps iw ps i w,
  ini_base + width * length ini_ps <= length iw ->
  base + width * (i + length ps) <= length w ->
  exists w', map_weights E width base ini_base i ps ini_ps (Ok iw) w = Ok w' /\ length w' = length w.
Proof.
  induction ps as [|p ps IH]; intros i w H1 H2; cbn; eauto.
  cbn [length] in H2.
  pose proof (find_from_spec ini_ps p 0) as F.
  destruct (find_from E 0 ini_ps p) as [j|]; cbn [bind].
  - destruct F as (k & q & -> & N & _). cbn [Nat.add].
    assert (k < length ini_ps) by (apply nth_error_Some; congruence).
    rewrite segment_defined by nia. cbn [bind].
    assert (length (firstn width (skipn (ini_base + width * k) iw)) = width) as LS
      by (rewrite firstn_length, skipn_length; nia).
    unfold assign. rewrite LS.
    destruct (Nat.leb_spec (base + width * i + width) (length w)); [|nia].
    cbn [bind].
    match goal with |- context [map_weights _ _ _ _ _ _ _ _ ?x] => set (w2 := x) end.
    assert (length w2 = length w) as L2.
    { unfold w2. rewrite !app_length, firstn_length, skipn_length, LS. nia. }
    destruct (IH (S i) w2 H1 ltac:(lia)) as (w' & -> & L'). exists w'. split; auto. lia.
  - apply IH; auto. lia.
Qed.

Lemma build_defined : forall (s : state) same p g ini,
  fitted ini = true ->
  (same || meqb E (model_ s) (model_ ini) = true ->
   length (weights_ ini) = length (centers_ ini) + dim E * length (grads_ ini) +
                           basis_size E (model_ s)) ->
  exists w, build_initial_weights E s same p g ini = Ok w /\
            length w = length p + dim E * length g + basis_size E (model_ s).
Proof.
  intros s same p g ini F H. destruct (same || meqb E (model_ s) (model_ ini)) eqn:Q.
  - specialize (H eq_refl).
    assert (exists w, build_initial_weights E s same p g ini = Ok w) as [w B].
    { unfold build_initial_weights. rewrite Q. cbn [negb]. unfold weights, guarded. rewrite F.
      set (l := basis_size E (model_ s)) in *.
      destruct (map_weights_defined 1 0 0 (centers_ ini) (weights_ ini) p 0
        (repeat (dzero E) (length p + dim E * length g + l))) as (w1 & -> & L1); try lia.
      { rewrite repeat_length. lia. }
      cbn [bind]. rewrite repeat_length in L1.
      destruct (map_weights_defined (dim E) (length p) (length (centers_ ini)) (grads_ ini)
        (weights_ ini) g 0 w1) as (w2 & -> & L2); try lia.
      cbn [bind]. rewrite segment_defined by lia. cbn [bind].
      unfold assign. rewrite firstn_length, skipn_length.
      destruct (Nat.leb_spec (length p + dim E * length g + Init.Nat.min l (length (weights_ ini) - (length (weights_ ini) - l))) (length w2)); [eauto|lia]. }
    exists w. split; auto. eapply build_same; eauto.
  - apply orb_false_iff in Q. destruct Q as [-> Q]. rewrite build_differ by auto.
    eexists; split; eauto. apply repeat_length.
Qed.

(** Refitting the same distinct points starts from the previous weights. *)
Definition distinct (ps : list Pt) : Prop :=
  forall i j p q, nth_error ps i = Some p -> nth_error ps j = Some q -> peqb E p q = true -> i = j.

Lemma skipn_skipn' : forall {A} n m (l : list A), skipn n (skipn m l) = skipn (m + n) l.
Proof.
  intros A n m. induction m; intros l; [reflexivity|]. destruct l; cbn; auto. apply skipn_nil.
Qed.

Lemma firstn_skipn_cat : forall {A} n m (l : list A),
  firstn n l ++ firstn m (skipn n l) = firstn (n + m) l.
Proof.
  induction n; intros m l; [reflexivity|]. destruct l; cbn.
  - rewrite firstn_nil. auto.
  - f_equal. apply IHn.
Qed.

Lemma inherits_all : forall width off (all : list Pt) w suf blocks k,
  (forall p, In p all -> peqb E p p = true) -> distinct all ->
  skipn k all = suf ->
  Forall2 (inherits E width off all w) suf blocks ->
  concat blocks = firstn (width * length suf) (skipn (off + width * k) w).
Proof.
  intros width off all w suf. induction suf as [|p suf IH]; intros blocks k R Dn Sk F.
  - inversion F; subst. rewrite Nat.mul_0_r. reflexivity.
  - inversion F as [|? b ? bs Hb Hbs]; subst.
    assert (nth_error all k = Some p) as Np.
    { rewrite <- (firstn_skipn k all). rewrite Sk.
      assert (k < length all).
      { destruct (le_lt_dec (length all) k); auto. rewrite skipn_all2 in Sk by auto. discriminate. }
      rewrite nth_error_app2; rewrite firstn_length_le by lia; [|lia].
      rewrite Nat.sub_diag. reflexivity. }
    assert (b = firstn width (skipn (off + width * k) w)) as ->.
    { destruct Hb as [(j & q & Nq & Pq & _ & ->)|[No _]].
      - assert (k = j) by (eapply Dn; eauto). subst. reflexivity.
      - exfalso. pose proof (nth_error_In _ _ Np) as I.
        pose proof (R p I) as Rp. rewrite (No p I) in Rp. discriminate. }
    cbn [concat]. rewrite (IH bs (S k)); auto.
    2:{ replace (S k) with (k + 1) by lia. rewrite <- skipn_skipn'. rewrite Sk. reflexivity. }
    replace (off + width * S k) with ((off + width * k) + width) by lia.
    rewrite <- (skipn_skipn' width (off + width * k) w). rewrite firstn_skipn_cat. f_equal. cbn [length]. lia.
Qed.

Lemma build_refit : forall (s : state) same,
  fitted s = true -> same || meqb E (model_ s) (model_ s) = true ->
  (forall p, In p (centers_ s) -> peqb E p p = true) -> distinct (centers_ s) ->
  (forall p, In p (grads_ s) -> peqb E p p = true) -> distinct (grads_ s) ->
  length (weights_ s) = length (centers_ s) + dim E * length (grads_ s) + basis_size E (model_ s) ->
  build_initial_weights E s same (centers_ s) (grads_ s) s = Ok (weights_ s).
Proof.
  intros s same F Q R1 D1 R2 D2 L.
  destruct (build_defined s same (centers_ s) (grads_ s) s F (fun _ => L)) as (w & B & _).
  rewrite B. f_equal.
  destruct (build_same s same _ _ s w Q F B) as [(pb & gb & F1 & F2 & ->) _].
  cbn [d_centers d_grads d_weights] in *.
  rewrite (inherits_all 1 0 (centers_ s) (weights_ s) (centers_ s) pb 0) by auto.
  rewrite (inherits_all (dim E) (length (centers_ s)) (grads_ s) (weights_ s) (grads_ s) gb 0)
    by auto.
  rewrite !Nat.mul_0_r, Nat.mul_1_l, !Nat.add_0_r. cbn [skipn].
  rewrite app_assoc, firstn_skipn_cat.
  replace (length (weights_ s) - basis_size E (model_ s))
    with (length (centers_ s) + dim E * length (grads_ s)) by lia.
  apply firstn_skipn.
Qed.

(** ** Validation *)

Lemma require_ok : forall b, require b = Ok tt <-> b = true.
Proof. intros []; cbn; split; congruence. Qed.

Lemma require_cases : forall b, (b = true /\ require b = Ok tt) \/
                                (b = false /\ require b = Throw ExInvalidArgument).
Proof. intros []; cbn; auto. Qed.

Definition abs (s : state) : option (fitted_data Pt D Box) * nat := (data_of s, ncalls s).

Lemma shows_data_of : forall s : state, shows s (data_of s).
Proof.
  intros s. unfold data_of, shows, centers, grad_centers, bbox, weights, guarded.
  destruct (fitted s); auto.
Qed.

Lemma initial_weights_spec : forall (s : state) i p g,
  match initial_weights E s i p g with
  | Ok w0 => usable_initial E (model_ s) (data_of s) i /\ start E (model_ s) (data_of s) i p g w0
  | Throw _ => ~ usable_initial E (model_ s) (data_of s) i
  | UB => True
  end.
Proof.
  intros s [| |o] p g; cbn [initial_weights].
  - split; [exact I|constructor].
  - destruct (fitted s) eqn:F.
    + destruct (build_initial_weights E s true p g s) as [a| |] eqn:B; cbn [bind]; auto.
      * destruct (build_same s true p g s a) as [S _]; auto.
        split; [cbn; unfold data_of; rewrite F; discriminate|].
        econstructor; eauto. unfold data_of. rewrite F. reflexivity.
      * exfalso. eapply build_fitted_no_throw; eauto.
    + rewrite build_unfitted by auto. cbn. unfold data_of. rewrite F. auto.
  - destruct (meqb E (model_ s) (model_ o)) eqn:Q.
    + destruct (fitted o) eqn:F.
      * destruct (build_initial_weights E s false p g o) as [a| |] eqn:B; cbn [bind]; auto.
        -- destruct (build_same s false p g o a) as [S _]; auto.
           split; [cbn; auto|]. eapply start_other; eauto. unfold data_of. rewrite F. reflexivity.
        -- exfalso. eapply build_fitted_no_throw; eauto.
      * rewrite build_unfitted by auto. cbn. intros H. specialize (H Q). congruence.
    + rewrite build_differ by auto. cbn. split; [congruence|].
      eapply start_different; eauto. reflexivity.
Qed.

Lemma check_num_points_spec : forall m mu sigma,
  (enough_points E m mu sigma /\ check_num_points E m mu sigma = Ok tt) \/
  (~ enough_points E m mu sigma /\ check_num_points E m mu sigma = Throw ExInvalidArgument).
Proof.
  intros. unfold check_num_points, enough_points.
  destruct (Z.eqb_spec (poly_degree E m) 1); cbn [andb];
  [destruct (Nat.eqb_spec mu 1); cbn [andb]; [destruct (Nat.leb_spec 1 sigma); [left; auto|]|]|];
  (destruct (Nat.ltb_spec mu (basis_size E m)); cbn; [right|left]; split; auto; intros [?|(?&?&?)]; lia).
Qed.

Hypothesis inf_positive : positive E (dinf E) = true.

Lemma validate_spec : forall (s : state) c, external c ->
  match validate E s c with
  | Ok w0 => acceptable E (model_ s) (data_of s) c /\
             match c with
             | Fit (Ext p) (Ext g) v t i => start E (model_ s) (data_of s) i p g w0
             | FitIneq (Ext p) v lb ub t i => start E (model_ s) (data_of s) i p [] w0
             | _ => True
             end
  | Throw _ => ~ acceptable E (model_ s) (data_of s) c
  | UB => True
  end.
Proof.
  intros s c X.
  assert (forall b, negb (b <? 0)%Z = true <-> (0 <= b)%Z) as ZI.
  { intros b. destruct (Z.ltb_spec b 0); cbn; split; intros; try lia; try discriminate; auto. }
  destruct c as [[p| |] [g| |] v t i|[p| |] [g| |] v t|[p| |] v lb ub t i]; try contradiction;
    cbn [validate deref acceptable];
    unfold check_tolerance, check_max_iter, check_accuracy.
  - destruct (check_num_points_spec (model_ s) (length p) (length g)) as [[H1 ->]|[H1 ->]];
      cbn [bind]; [|tauto].
    destruct (require_cases (length v =? length p + dim E * length g)) as [[H2 ->]|[H2 ->]];
      cbn [bind]; [apply Nat.eqb_eq in H2|apply Nat.eqb_neq in H2; tauto].
    destruct (require_cases (positive E (tol t))) as [[H3 ->]|[H3 ->]]; cbn [bind];
      [|rewrite H3; intuition congruence].
    destruct (require_cases (positive E (gtol t))) as [[H4 ->]|[H4 ->]]; cbn [bind];
      [|rewrite H4; intuition congruence].
    destruct (require_cases (negb (max_iter t <? 0)%Z)) as [[H5 ->]|[H5 ->]]; cbn [bind];
      [apply ZI in H5|rewrite <- ZI; rewrite H5; intuition congruence].
    destruct (require_cases (positive E (acc t))) as [[H6 ->]|[H6 ->]]; cbn [bind];
      [|rewrite H6; intuition congruence].
    destruct (require_cases (positive E (gacc t))) as [[H7 ->]|[H7 ->]]; cbn [bind];
      [|rewrite H7; intuition congruence].
    pose proof (initial_weights_spec s i p g) as W.
    destruct (initial_weights E s i p g); auto; tauto.
  - destruct (check_num_points_spec (model_ s) (length p) (length g)) as [[H1 ->]|[H1 ->]];
      cbn [bind]; [|tauto].
    destruct (require_cases (length v =? length p + dim E * length g)) as [[H2 ->]|[H2 ->]];
      cbn [bind]; [apply Nat.eqb_eq in H2|apply Nat.eqb_neq in H2; tauto].
    destruct (require_cases (positive E (tol t))) as [[H3 ->]|[H3 ->]]; cbn [bind];
      [|rewrite H3; intuition congruence].
    destruct (require_cases (positive E (gtol t))) as [[H4 ->]|[H4 ->]]; cbn [bind];
      [|rewrite H4; intuition congruence].
    destruct (require_cases (negb (max_iter t <? 0)%Z)) as [[H5 ->]|[H5 ->]]; cbn [bind];
      [apply ZI in H5|rewrite <- ZI; rewrite H5; intuition congruence].
    destruct (require_cases (positive E (acc t))) as [[H6 ->]|[H6 ->]]; cbn [bind];
      [|rewrite H6; intuition congruence].
    destruct (require_cases (positive E (gacc t))) as [[H7 ->]|[H7 ->]]; cbn [bind];
      [|rewrite H7; intuition congruence].
    tauto.
  - destruct (nugget_is_zero E (model_ s)) eqn:Nz; cbn [negb]; [|intuition congruence].
    assert (check_num_points E (model_ s) (length p) 0 = require (negb (length p <? basis_size E (model_ s)))) as ->.
    { unfold check_num_points. rewrite andb_false_r. reflexivity. }
    destruct (require_cases (negb (length p <? basis_size E (model_ s)))) as [[H1 ->]|[H1 ->]];
      cbn [bind]; [apply negb_true_iff, Nat.ltb_ge in H1|apply negb_false_iff, Nat.ltb_lt in H1; lia].
    destruct (require_cases (length v =? length p)) as [[H2 ->]|[H2 ->]];
      cbn [bind]; [apply Nat.eqb_eq in H2|apply Nat.eqb_neq in H2; tauto].
    destruct (require_cases (length lb =? length p)) as [[H2' ->]|[H2' ->]];
      cbn [bind]; [apply Nat.eqb_eq in H2'|apply Nat.eqb_neq in H2'; tauto].
    destruct (require_cases (length ub =? length p)) as [[H2'' ->]|[H2'' ->]];
      cbn [bind]; [apply Nat.eqb_eq in H2''|apply Nat.eqb_neq in H2''; tauto].
    destruct (require_cases (positive E (tol t))) as [[H3 ->]|[H3 ->]]; cbn [bind];
      [|rewrite H3; intuition congruence].
    rewrite inf_positive. cbn [require bind].
    destruct (require_cases (negb (max_iter t <? 0)%Z)) as [[H5 ->]|[H5 ->]]; cbn [bind];
      [apply ZI in H5|rewrite <- ZI; rewrite H5; intuition congruence].
    destruct (require_cases (positive E (acc t))) as [[H6 ->]|[H6 ->]]; cbn [bind];
      [|rewrite H6; intuition congruence].
    pose proof (initial_weights_spec s i p []) as W.
    destruct (initial_weights E s i p []); auto; tauto.
Qed.

(** ** The object refines the abstract lifecycle *)

Lemma select_rows : forall (ps : list Pt) is qs, select ps is = Ok qs -> rows ps is qs.
Proof.
  induction is as [|i is IH]; intros qs H; cbn in H.
  - injection H as <-. constructor.
  - destruct (nth_error ps i) eqn:N; cbn in H; [|discriminate].
    destruct (select ps is); cbn in H; try discriminate. injection H as <-.
    constructor; auto. apply IH. reflexivity.
Qed.

Lemma select_no_throw : forall (ps : list Pt) is e, select ps is <> Throw e.
Proof.
  induction is as [|i is IH]; intros e H; cbn in H; [discriminate|].
  destruct (nth_error ps i); cbn in H; [|discriminate].
  destruct (select ps is) eqn:S; cbn in H; try discriminate. eapply IH; eauto.
Qed.

Lemma perform_spec : forall (s : state) c w0, external c ->
  match c with
  | Fit (Ext p) (Ext g) v t i => start E (model_ s) (data_of s) i p g w0
  | FitIneq (Ext p) v lb ub t i => start E (model_ s) (data_of s) i p [] w0
  | _ => True
  end ->
  match perform E (clear E s) c w0 with
  | Ok s' => exists d, fit_result E (model_ s) (ncalls s) (data_of s) c (Ok d) /\
               data_of s' = Some d /\ ncalls s' = S (ncalls s) /\ model_ s' = model_ s /\
               evaluator_ s' = evaluator_ s
  | Throw e => fit_result E (model_ s) (ncalls s) (data_of s) c (Throw e)
  | UB => True
  end.
Proof.
  intros s c w0 X St.
  destruct c as [[p| |] [g| |] v t i|[p| |] [g| |] v t|[p| |] v lb ub t i]; try contradiction;
    cbn [perform deref clear ncalls model_ grads_].
  - destruct (fitter E (ncalls s) (model_ s) p g v t w0) as [w| |] eqn:F; cbn [bind]; auto.
    + eexists. split; [econstructor; eauto|]. repeat split.
    + econstructor; eauto.
  - destruct (inc_fitter E (ncalls s) (model_ s) p g v t) as [[[ci gi] w]| |] eqn:F; cbn [bind]; auto.
    + cbn [fst snd].
      destruct (select p ci) as [c| |] eqn:S1; cbn [bind]; auto.
      2:{ exfalso. eapply select_no_throw; eauto. }
      destruct (select g gi) as [gc| |] eqn:S2; cbn [bind]; auto.
      2:{ exfalso. eapply select_no_throw; eauto. }
      eexists. split; [eapply fr_inc; eauto using select_rows|]. repeat split.
    + econstructor; eauto.
  - destruct (ineq_fitter E (ncalls s) (model_ s) p v lb ub _ w0) as [[ci w]| |] eqn:F;
      cbn [bind]; auto.
    + cbn [fst snd].
      destruct (select p ci) as [c| |] eqn:S1; cbn [bind]; auto.
      2:{ exfalso. eapply select_no_throw; eauto. }
      eexists. split; [eapply fr_ineq; eauto using select_rows|]. repeat split.
    + eapply fr_ineq_fail; eauto.
Qed.

(** One fit call: rejected without any effect, or accepted and then all or nothing. *)
Lemma fit_spec : forall (s : state) c out s', external c -> fit E s c = Ok (out, s') ->
  (~ acceptable E (model_ s) (data_of s) c /\ s' = s /\ exists e, out = Throw e) \/
  (acceptable E (model_ s) (data_of s) c /\ ncalls s' = S (ncalls s) /\ model_ s' = model_ s /\
   evaluator_ s' = evaluator_ s /\
   ((exists d, fit_result E (model_ s) (ncalls s) (data_of s) c (Ok d) /\
               data_of s' = Some d /\ out = Ok tt) \/
    (exists e, fit_result E (model_ s) (ncalls s) (data_of s) c (Throw e) /\
               data_of s' = None /\ out = Throw e))).
Proof.
  intros s c out s' X H. unfold fit in H.
  pose proof (validate_spec s c X) as V.
  destruct (validate E s c) as [w0|e|]; try discriminate.
  - destruct V as [A St]. pose proof (perform_spec s c w0 X St) as P.
    destruct (perform E (clear E s) c w0) as [s1|e|]; try discriminate; injection H as <- <-; right.
    + destruct P as (d & FR & Dd & N & Mm & Ev). repeat (split; auto). left. eauto.
    + repeat (split; auto). right. exists e. repeat split; auto.
  - injection H as <- <-. left. eauto.
Qed.

Lemma set_evaluation_bbox_frame : forall (s : state) b a ga,
  let s' := snd (set_evaluation_bbox E s b a ga) in
  data_of s' = data_of s /\ ncalls s' = ncalls s /\ model_ s' = model_ s.
Proof.
  intros. unfold s', set_evaluation_bbox.
  destruct (fitted s) eqn:F; [|auto].
  destruct (make_evaluator_throws E _); cbn [snd]; auto.
  unfold data_of; cbn. rewrite F. auto.
Qed.

Lemma evaluate_frame : forall (s : state) p g a ga,
  let s' := snd (evaluate E s p g a ga) in
  data_of s' = data_of s /\ ncalls s' = ncalls s /\ model_ s' = model_ s.
Proof.
  intros. unfold s', evaluate. destruct (fitted s) eqn:F; [|auto].
  destruct (check_accuracy E a ga); auto.
  pose proof (set_evaluation_bbox_frame s (hull E (from_points E p) (from_points E g)) a ga) as H.
  destruct (set_evaluation_bbox E s _ a ga) as [[| |] s1]; cbn [snd] in *; auto.
Qed.

Lemma step_lifecycle : forall (s : state) o s', external_op o -> step E s o = Ok s' ->
  lifecycle E (model_ s) (abs s) o (abs s') /\ model_ s' = model_ s.
Proof.
  intros s o s' X H. unfold abs. destruct o; cbn [step] in H.
  - destruct (fit E s c) as [[out s1]| |] eqn:F; cbn in H; try discriminate. injection H as <-.
    apply fit_spec in F; auto.
    destruct F as [(R & -> & _)|(A & N & Mm & _ & [(d & FR & Dd & _)|(e & FR & Dd & _)])].
    + split; auto. constructor; auto.
    + rewrite Dd, N. split; auto. constructor; auto.
    + rewrite Dd, N. split; auto. eapply lc_failed; eauto.
  - injection H as <-. pose proof (set_evaluation_bbox_frame s b a ga) as (-> & -> & ->).
    split; auto. constructor.
  - pose proof (evaluate_frame s ps gs a ga) as (F1 & F2 & F3).
    destruct (evaluate E s ps gs a ga) as [[| |] s1]; cbn [snd] in *; try discriminate;
      injection H as <-; rewrite F1, F2; split; auto; constructor.
  - destruct (evaluate_impl E s ps gs); try discriminate; injection H as <-; split; auto; constructor.
Qed.

Lemma run_lifecycles : forall os (s s' : state), Forall external_op os -> run E s os = Ok s' ->
  lifecycles E (model_ s) (abs s) os (abs s') /\ model_ s' = model_ s.
Proof.
  induction os as [|o os IH]; intros s s' X H; cbn in H.
  - injection H as <-. split; auto. constructor.
  - inversion X; subst. destruct (step E s o) as [s1| |] eqn:S; cbn in H; try discriminate.
    apply step_lifecycle in S; auto. destruct S as [S Ms].
    apply IH in H; auto. destruct H as [H Mh]. rewrite Ms in *.
    split; auto. econstructor; eauto.
Qed.

Lemma run_shows : forall m os s', Forall external_op os -> run E (init E m) os = Ok s' ->
  exists cur k, lifecycles E m (None, 0) os (cur, k) /\ shows s' cur.
Proof.
  intros m os s' X H. apply run_lifecycles in H; auto. destruct H as [H _].
  exists (data_of s'), (ncalls s'). split; [exact H|apply shows_data_of].
Qed.

(** The abstract lifecycle is deterministic about acceptance: the last accepted call decides. *)
Lemma last_fit_decides : forall (s s1 s2 : state) c os out, external c -> Forall external_op os ->
  fit E s c = Ok (out, s1) -> acceptable E (model_ s) (data_of s) c ->
  run E s1 os = Ok s2 ->
  (forall o pre post sp, os = pre ++ o :: post -> run E s1 pre = Ok sp ->
     match o with OpFit c' => ~ acceptable E (model_ sp) (data_of sp) c' | _ => True end) ->
  data_of s2 = data_of s1.
Proof.
  intros s s1 s2 c os out X XS F A R NA. clear F A X c out.
  revert s1 R NA. induction os as [|o os IH]; intros s1 R NA; cbn in R.
  - injection R as <-. auto.
  - inversion XS; subst. destruct (step E s1 o) as [s3| |] eqn:S; cbn in R; try discriminate.
    assert (data_of s3 = data_of s1) as E1.
    { pose proof (NA o [] os s1 eq_refl eq_refl) as NAo.
      apply step_lifecycle in S; auto. destruct S as [S _]. unfold abs in S.
      inversion S; subst; auto; contradiction. }
    rewrite <- E1. apply IH; auto.
    intros o' pre post sp -> Rp. apply (NA o' (o :: pre) post sp); auto.
    cbn. rewrite S. exact Rp.
Qed.

(** ** Evaluation *)

Lemma evaluate_current : forall (s : state) d p g a ga, data_of s = Some d ->
  positive E a = true -> positive E ga = true ->
  let e := evaluator_of E (model_ s) d (hull E (from_points E p) (from_points E g)) a ga in
  fst (evaluate E s p g a ga) =
  match make_evaluator_throws E e with Some x => Throw x | None => eval E e p g end.
Proof.
  intros s d p g a ga Hd Pa Pg e. unfold data_of in Hd. unfold evaluate.
  destruct (fitted s) eqn:F; [|discriminate]. injection Hd as <-.
  unfold check_accuracy. rewrite Pa, Pg. cbn [require bind].
  unfold set_evaluation_bbox. rewrite F. unfold e, evaluator_of. cbn [d_centers d_grads d_box d_weights].
  destruct (make_evaluator_throws E _); cbn [fst]; auto.
Qed.

Lemma evaluate_unfitted : forall (s : state) p g a ga, data_of s = None ->
  evaluate E s p g a ga = (Throw ExRuntimeError, s) /\ evaluate_impl E s p g = Throw ExRuntimeError.
Proof.
  intros s p g a ga H. unfold data_of in H. unfold evaluate, evaluate_impl.
  destruct (fitted s); [discriminate|auto].
Qed.

Lemma rejected_fit : forall (s : state) c s', external c ->
  ~ acceptable E (model_ s) (data_of s) c -> step E s (OpFit c) = Ok s' -> s' = s.
Proof.
  intros s c s' X A S. cbn in S.
  destruct (fit E s c) as [[out s1]| |] eqn:F; cbn in S; try discriminate. injection S as <-.
  apply fit_spec in F; auto. destruct F as [(_ & -> & _)|(A' & _)]; auto. contradiction.
Qed.

(** Operations that keep the evaluation box: rejected fits and evaluate_impl. *)
Definition quiet (os : list op) (s1 : state) : Prop :=
  forall o pre post sp, os = pre ++ o :: post -> run E s1 pre = Ok sp ->
    match o with
    | OpFit c => ~ acceptable E (model_ sp) (data_of sp) c
    | OpEvaluateImpl _ _ => True
    | _ => False
    end.

Lemma quiet_run : forall os (s s' : state), Forall external_op os -> quiet os s ->
  run E s os = Ok s' -> s' = s.
Proof.
  induction os as [|o os IH]; intros s s' X Q R; cbn in R; [congruence|].
  inversion X; subst.
  destruct (step E s o) as [s1| |] eqn:S; cbn in R; try discriminate.
  assert (s1 = s) as ->.
  { pose proof (Q o [] os s eq_refl eq_refl) as Qo. destruct o; try contradiction.
    - eapply rejected_fit; eauto.
    - cbn in S. destruct (evaluate_impl E s ps gs); congruence. }
  apply IH; auto. intros o' pre post sp -> Rp. apply (Q o' (o :: pre) post sp); auto.
  cbn. rewrite S. exact Rp.
Qed.

Lemma two_step : forall (s s1 s2 : state) d b a ga os p g,
  data_of s = Some d -> set_evaluation_bbox E s b a ga = (Ok tt, s1) ->
  Forall external_op os -> quiet os s1 -> run E s1 os = Ok s2 ->
  evaluate_impl E s2 p g = eval E (evaluator_of E (model_ s) d b a ga) p g.
Proof.
  intros s s1 s2 d b a ga os p g Hd Hs X Q R.
  apply quiet_run in R; auto. subst s2.
  unfold data_of in Hd. unfold set_evaluation_bbox in Hs. unfold evaluate_impl.
  destruct (fitted s) eqn:F; [|discriminate]. injection Hd as <-.
  destruct (make_evaluator_throws E _); [discriminate|]. injection Hs as <-. cbn.
  reflexivity.
Qed.

Lemma stale_evaluator : forall (s s' : state) d b a ga c p g s1,
  data_of s = Some d -> set_evaluation_bbox E s b a ga = (Ok tt, s1) ->
  external c -> fit E s1 c = Ok (Ok tt, s') ->
  evaluate_impl E s' p g = eval E (evaluator_of E (model_ s) d b a ga) p g.
Proof.
  intros s s' d b a ga c p g s1 Hd Hs X F.
  apply fit_spec in F; auto.
  destruct F as [(_ & _ & e & H)|(_ & _ & _ & Ev & [(d' & _ & Dd & _)|(e & _ & _ & H)])];
    try discriminate.
  unfold data_of in Hd, Dd. unfold set_evaluation_bbox in Hs. unfold evaluate_impl.
  destruct (fitted s) eqn:Fs; [|discriminate]. injection Hd as <-.
  destruct (fitted s'); [|discriminate].
  destruct (make_evaluator_throws E _); [discriminate|]. injection Hs as <-. cbn in Ev.
  rewrite Ev. reflexivity.
Qed.

Lemma null_evaluator : forall m c s' p g, external c -> fit E (init E m) c = Ok (Ok tt, s') ->
  evaluate_impl E s' p g = UB.
Proof.
  intros m c s' p g X F. apply fit_spec in F; auto.
  destruct F as [(_ & _ & e & H)|(_ & _ & _ & Ev & [(d' & _ & Dd & _)|(e & _ & _ & H)])];
    try discriminate.
  unfold evaluate_impl. unfold data_of in Dd. destruct (fitted s'); [|discriminate].
  rewrite Ev. reflexivity.
Qed.

(** Refitting on the interpolant's own centers: the reference is emptied by clear() first. *)
Lemma own_centers : forall (s s' : state) v t,
  fit E s (Fit OwnCenters (Ext []) v t NoInitial) = Ok (Ok tt, s') ->
  fitter E (ncalls s) (model_ s) [] [] v t None = Ok (weights_ s') /\
  length v = length (centers_ s) /\ centers s' = Ok [].
Proof.
  intros s s' v t H. unfold fit in H.
  destruct (validate E s _) as [w0| |] eqn:V; try discriminate.
  cbn [validate deref length] in V.
  destruct (check_num_points E (model_ s) (length (centers_ s)) 0); cbn [bind] in V; try discriminate.
  destruct (require_cases (length v =? length (centers_ s) + dim E * 0)) as [[L R]|[_ R]];
    rewrite R in V; [|discriminate].
  cbn [bind] in V.
  destruct (check_tolerance E (tol t) (gtol t)); cbn [bind] in V; try discriminate.
  destruct (check_max_iter (max_iter t)); cbn [bind] in V; try discriminate.
  destruct (check_accuracy E (acc t) (gacc t)); cbn [bind] in V; try discriminate.
  injection V as <-.
  cbn [perform deref clear centers_ ncalls model_] in H.
  destruct (fitter E (ncalls s) (model_ s) [] [] v t None) as [w| |]; cbn [bind] in H;
    try discriminate.
  injection H as <-. cbn. apply Nat.eqb_eq in L. repeat split; auto. lia.
Qed.

End Proofs.
