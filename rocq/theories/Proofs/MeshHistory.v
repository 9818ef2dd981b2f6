From Coq Require Import Sorted List Arith Bool Lia.
From Verif Require Import Model.Outcome Model.MeshDefects Model.AbstractMesh
  Spec.VertexClusterer Spec.AbstractMesh Proofs.MeshDefects Proofs.AbstractMesh Proofs.MeshEditing.
Import ListNotations.

(** ** insert_on_edge *)

Lemma corner_unused : forall m h v, unused m v -> side (live m) h ->
  tail (m_face m) h <> v /\ head (m_face m) h <> v /\ third (m_face m) h <> v.
Proof.
  intros m h v U [L K]. pose proof (U _ L) as N.
  split; [|split]; intros E; apply N, has_corner_iff; [exists (snd h)|exists (ccw (snd h))|exists (cw (snd h))]; auto using ccw_lt, cw_lt.
Qed.

Theorem insert_on_edge_spec : forall m a b v, consistent m -> allowed m (InsertOnEdge a b v) ->
  match insert_on_edge m a b v with
  | Ok m' => split_result m m' a b v /\ ~ folded m a b
  | Throw e => e = ExRuntimeError /\ folded m a b
  | UB => False
  end.
Proof.
  intros m a b v C (AB & U & VA & VB & CAP). pose proof C as [D LC]. unfold insert_on_edge, faces_of.
  assert (forall x y, edge m (live m) x y -> x <> v /\ y <> v) as NV by (intros x y; apply edge_head_ne; auto).
  assert (forall a' b' h, side (live m) h -> along m a' b' h -> ~ has_corner (m_face m (fst h)) v) as NC by (intros a' b' h S _; apply U, S).
  assert (forall x y h, halfedge_of m x y = Some h -> side (live m) h /\ tail (m_face m) h = x /\ head (m_face m) h = y) as HO
    by (intros x y h; apply halfedge_of_spec; auto).
  assert (forall x y, halfedge_of m x y = None -> forall h, side (live m) h -> tail (m_face m) h = x -> head (m_face m) h = y -> False) as HN
    by (intros x y; apply halfedge_of_none; auto).
  (* one side only *)
  assert (forall h, along m a b h -> (forall h', along m a b h' -> h' = h) ->
    match split_sides m [fst h] a b v with
    | Ok m' => split_result m m' a b v | Throw e => False | UB => False end) as ONE.
  { intros h AL UN. pose proof AL as [S TH]. pose proof (split_side_ok m h a b v C S TH ltac:(lia) (NC a b h S AL)) as P.
    cbn [split_sides]. destruct (split_side m (fst h) a b v) as [m'|e|]; cbn [bind]; auto.
    - destruct P as (C' & A' & B' & L' & F' & _). split; [auto|]. split; [lia|].
      assert (forall n, m_nf m <= n < m_nf m' <-> n = m_nf m) as RG by (intros; rewrite B'; lia).
      assert (fst h <> m_nf m) as NE by (destruct S as [[X _] _]; lia).
      split; [intros x; rewrite L', RG; tauto|]. split; [|split].
      + intros h' AL'. rewrite (UN h' AL'). rewrite F'. split; [rewrite upd_other, upd_same by auto; auto|].
        exists (m_nf m). split; [lia|]. apply upd_same.
      + intros x LX NX. rewrite F'. rewrite !upd_other; auto; [intros E; apply (NX h AL); auto|].
        intros ->. destruct LX. lia.
      + intros n N. apply RG in N. subst n. exists h. split; auto. rewrite F'. apply upd_same.
    - destruct (corner_unused m h v U S) as (Q1 & Q2 & Q3).
      destruct P as (_ & [X|[X|[X|X]]]); apply NV in X; intuition congruence. }
  destruct (halfedge_of m a b) as [g|] eqn:EG; destruct (halfedge_of m b a) as [h|] eqn:EH; cbn [app].
  - destruct (HO _ _ _ EG) as (SG & TG & HG). destruct (HO _ _ _ EH) as (SH & TH & HH).
    assert (along m a b g) as AG by (split; auto). assert (along m a b h) as AH by (split; auto).
    assert (forall x, along m a b x -> x = g \/ x = h) as UN.
    { intros x [S [[T H]|[T H]]]; [left|right]; apply (unique_side m (live m)); auto; congruence. }
    pose proof D as (F & _).
    assert (fst g <> fst h) as NF.
    { intros E. destruct SG as [LG KG], SH as [LH KH]. destruct (F _ LG) as [_ DG].
      unfold tail, head in *. rewrite <- E in *. apply (no_self_reverse _ (snd g) (snd h) DG KG KH); congruence. }
    cbn [split_sides].
    pose proof (split_side_ok m g a b v C SG (or_introl (conj TG HG)) ltac:(lia) (NC a b g SG AG)) as P.
    destruct (corner_unused m g v U SG) as (Q1 & Q2 & Q3). destruct (corner_unused m h v U SH) as (Q4 & Q5 & Q6).
    destruct (split_side m (fst g) a b v) as [m1|e|]; cbn [bind]; auto.
    + destruct P as (C1 & A1 & B1 & L1 & F1 & E1 & _).
      assert (fst g <> m_nf m) as NG by (destruct SG as [[X _] _]; lia).
      assert (fst h <> m_nf m) as NH by (destruct SH as [[X _] _]; lia).
      assert (m_face m1 (fst h) = m_face m (fst h)) as FH by (rewrite F1, !upd_other; auto).
      assert (tail (m_face m1) h = tail (m_face m) h) as T1 by (unfold tail; rewrite FH; auto).
      assert (head (m_face m1) h = head (m_face m) h) as H1 by (unfold head; rewrite FH; auto).
      assert (third (m_face m1) h = third (m_face m) h) as X1 by (unfold third; rewrite FH; auto).
      assert (side (live m1) h) as S1 by (split; [apply L1; left; apply SH|apply SH]).
      pose proof (split_side_ok m1 h a b v C1 S1) as P. cbv zeta in P. rewrite T1, H1, X1 in P.
      specialize (P (or_intror (conj TH HH)) ltac:(lia)). rewrite FH in P. specialize (P (NC a b h SH AH)).
      rewrite TH, HH, TG, HG in *. set (c := third (m_face m) g) in *. set (d := third (m_face m) h) in *.
      assert (a <> c /\ b <> c /\ d <> a /\ d <> b) as (W1 & W2 & W3 & W4).
      { destruct SG as [LG KG], SH as [LH KH]. destruct (F _ LG) as [_ DG], (F _ LH) as [_ DH].
        destruct (corners_of_side _ _ DG KG) as (Z1 & Z2 & Z3). destruct (corners_of_side _ _ DH KH) as (Z4 & Z5 & Z6).
        unfold c, d, third, tail, head in *. repeat split; congruence. }
      destruct (split_side m1 (fst h) a b v) as [m2|e|]; auto.
      * destruct P as (C2 & A2 & B2 & L2 & F2 & _ & Y1 & Y2). split; [|].
        -- assert (forall n, m_nf m <= n < m_nf m2 <-> n = m_nf m \/ n = S (m_nf m)) as RG by (clear - B1 B2; intros; rewrite B2, B1; lia).
           assert (fst g <> S (m_nf m)) as NG' by (destruct SG as [[X _] _]; lia).
           assert (fst h <> S (m_nf m)) as NH' by (destruct SH as [[X _] _]; lia).
           split; [auto|]. split; [clear - B1 B2; lia|]. split; [intros x; rewrite L2, L1, RG, B1; tauto|]. split; [|split].
           ++ intros x AX. destruct (UN x AX) as [->| ->].
              ** rewrite TG, HG. fold c. rewrite F2, B1, F1. split; [rewrite !upd_other, upd_same by auto; auto|].
                 exists (m_nf m). split; [lia|]. rewrite upd_other by lia. rewrite upd_other by auto. apply upd_same.
              ** rewrite TH, HH. fold d. rewrite F2, B1. split; [rewrite upd_other, upd_same by auto; auto|].
                 exists (S (m_nf m)). split; [lia|]. apply upd_same.
           ++ intros x LX NX. rewrite F2, B1, F1.
              pose proof (NX g AG) as NXg. pose proof (NX h AH) as NXh. assert (x < m_nf m) as LT by apply LX.
              rewrite !upd_other; auto; clear - LT; lia.
           ++ intros n N. apply RG in N. destruct N as [->| ->].
              ** exists g. split; auto. rewrite HG. fold c. rewrite F2, B1, F1. rewrite upd_other by lia. rewrite upd_other by auto. apply upd_same.
              ** exists h. split; auto. rewrite HH. fold d. rewrite F2, B1. apply upd_same.
        -- intros (g' & h' & SG' & SH' & TG' & HG' & TH' & HH' & EQ).
           assert (g' = g) as -> by (apply (unique_side m (live m)); auto; congruence).
           assert (h' = h) as -> by (apply (unique_side m (live m)); auto; congruence).
           apply Y1. apply E1. right. right. left. split; auto.
      * destruct P as (-> & P). split; auto. exists g, h. repeat (split; [auto|]). fold c d.
        destruct P as [P|[P|[P|P]]]; apply E1 in P; destruct P as [[P _]|P]; try (apply NV in P); intuition congruence.
    + exfalso. rewrite TG, HG in *. destruct P as (_ & [X|[X|[X|X]]]); apply NV in X; intuition congruence.
  - destruct (HO _ _ _ EG) as (SG & TG & HG). specialize (ONE g).
    assert (forall x, along m a b x -> x = g) as UN.
    { intros x [S [[T H]|[T H]]]; [apply (unique_side m (live m)); auto; congruence|]. exfalso. apply (HN _ _ EH x); auto. }
    destruct (split_sides m [fst g] a b v); try (apply ONE; auto; split; auto; fail).
    + split; [apply ONE; auto; split; auto|]. intros (g' & h' & _ & SH' & _ & _ & TH' & HH' & _). apply (HN _ _ EH h'); auto.
    + exfalso. apply ONE; auto. split; auto.
  - destruct (HO _ _ _ EH) as (SH & TH & HH). specialize (ONE h).
    assert (forall x, along m a b x -> x = h) as UN.
    { intros x [S [[T H]|[T H]]]; [exfalso; apply (HN _ _ EG x); auto|]. apply (unique_side m (live m)); auto; congruence. }
    destruct (split_sides m [fst h] a b v); try (apply ONE; auto; split; auto; fail).
    + split; [apply ONE; auto; split; auto|]. intros (g' & h' & SG' & _ & TG' & HG' & _). apply (HN _ _ EG g'); auto.
    + exfalso. apply ONE; auto. split; auto.
  - cbn [split_sides]. split.
    + assert (forall h, ~ along m a b h) as NA.
      { intros h [S [[T H]|[T H]]]; [apply (HN _ _ EG h)|apply (HN _ _ EH h)]; auto. }
      split; [auto|]. split; [auto|]. split; [intros x; split; [auto|]; intros [X|X]; [auto|lia]|].
      split; [intros h AL; destruct (NA h AL)|]. split; [auto|]. intros n N. lia.
    + intros (g' & h' & SG' & _ & TG' & HG' & _). apply (HN _ _ EG g'); auto.
Qed.

(** ** collapse *)

Lemma has_vertex_spec : forall f v, has_vertex f v = true <-> has_corner f v.
Proof. intros [[a b] c] v. cbn. rewrite !orb_true_iff, !Nat.eqb_eq. intuition auto. Qed.

Lemma retarget_distinct : forall f a b, distinct3 f -> has_vertex f b = false -> distinct3 (retarget f a b).
Proof.
  intros [[x y] z] a b (N1 & N2 & N3) H. cbn in H. rewrite !orb_false_iff, !Nat.eqb_neq in H. destruct H as [[H1 H2] H3].
  cbn. destruct (Nat.eqb_spec x a), (Nat.eqb_spec y a), (Nat.eqb_spec z a); subst; repeat split; congruence.
Qed.

Lemma unregister_all_spec : forall fis m R, describes m R -> NoDup fis -> (forall x, In x fis -> R x) ->
  exists m', unregister_all m fis = Ok m' /\ describes m' (fun x => R x /\ ~ In x fis) /\ frame m m'.
Proof.
  induction fis as [|fi fis IH]; intros m R D ND H.
  - exists m. split; [auto|]. split; [|apply frame_refl]. apply (describes_ext m R _ D). intros x. cbn. tauto.
  - inversion ND as [|? ? N1 N2]; subst. cbn [unregister_all].
    destruct (unregistered m R fi D (H fi (or_introl eq_refl))) as (m1 & -> & D1 & F1 & _). cbn [bind].
    destruct (IH m1 _ D1 N2) as (m2 & E & D2 & F2).
    { intros x I. split; [apply H; right; auto|]. intros ->. auto. }
    exists m2. split; [auto|]. split; [|eapply frame_trans; eauto].
    apply (describes_ext m2 _ _ D2). intros x. unfold minus. cbn. intuition auto.
Qed.

Definition moves (keep : nat) (m : mesh) (x : nat) : bool := negb (has_vertex (m_face m x) keep).
Definition moved_face (drop keep : nat) (m : mesh) (fis : list nat) (x : nat) : face :=
  if in_dec Nat.eq_dec x fis then if moves keep m x then retarget (m_face m x) drop keep else m_face m x else m_face m x.

Lemma move_all_spec : forall drop keep fis m R moved, describes m R -> NoDup fis ->
  (forall x, In x fis -> ~ R x /\ x < m_nf m /\ distinct3 (m_face m x)) ->
  match move_all m drop keep fis moved with
  | Ok (m', mv) => describes m' (fun x => R x \/ (In x fis /\ moves keep m x = true)) /\
      m_cap m' = m_cap m /\ m_nf m' = m_nf m /\ (forall x, m_face m' x = moved_face drop keep m fis x) /\
      (forall x, m_deleted m' x = true <-> m_deleted m x = true \/ (In x fis /\ moves keep m x = false)) /\
      mv = moved ++ filter (moves keep m) fis
  | Throw e => e = ExRuntimeError /\ clash (moved_face drop keep m fis) (fun x => R x \/ (In x fis /\ moves keep m x = true))
  | UB => False
  end.
Proof.
  intros drop keep fis. induction fis as [|fi fis IH]; intros m R moved D ND H.
  - cbn. split; [apply (describes_ext m R _ D); tauto|]. split; [auto|]. split; [auto|]. split; [auto|]. split; [tauto|]. rewrite app_nil_r. auto.
  - inversion ND as [|? ? N1 N2]; subst. destruct (H fi (or_introl eq_refl)) as (NR & L & DF). cbn [move_all].
    destruct (has_vertex (m_face m fi) keep) eqn:HV.
    + assert (moves keep m fi = false) as MF by (unfold moves; rewrite HV; auto).
      specialize (IH (set_deleted m fi) R moved (describes_deleted _ _ _ D) N2 ltac:(intros x I; apply (H x); right; auto)).
      assert (forall x, moved_face drop keep (set_deleted m fi) fis x = moved_face drop keep m (fi :: fis) x) as MV.
      { intros x. unfold moved_face. change (m_face (set_deleted m fi)) with (m_face m). change (moves keep (set_deleted m fi)) with (moves keep m).
        destruct (in_dec Nat.eq_dec x fis) as [I|I], (in_dec Nat.eq_dec x (fi :: fis)) as [J|J]; auto.
        - exfalso. apply J. right. auto.
        - destruct J as [->|J]; [rewrite MF; auto|contradiction]. }
      assert (forall x, R x \/ (In x fis /\ moves keep (set_deleted m fi) x = true) <-> R x \/ (In x (fi :: fis) /\ moves keep m x = true)) as RR.
      { intros x. change (moves keep (set_deleted m fi)) with (moves keep m). cbn. split; [tauto|].
        intros [X|[[->|X] Y]]; auto. congruence. }
      destruct (move_all (set_deleted m fi) drop keep fis moved) as [[m' mv]|e|]; auto.
      * destruct IH as (D' & A & B & F & G & E). split; [apply (describes_ext m' _ _ D' RR)|].
        split; [auto|]. split; [auto|]. split; [intros x; rewrite F; auto|]. split.
        -- intros x. rewrite G. change (moves keep (set_deleted m fi)) with (moves keep m). cbn [m_deleted set_deleted]. unfold upd.
           destruct (Nat.eqb_spec x fi) as [->|NE]; cbn; intuition (try congruence; auto).
        -- rewrite E. cbn [filter]. rewrite MF. auto.
      * destruct IH as [-> CL]. split; auto. apply (clash_mono _ _ _ _ CL); [intros x; apply RR|intros x _; apply MV].
    + assert (moves keep m fi = true) as MF by (unfold moves; rewrite HV; auto).
      set (f' := retarget (m_face m fi) drop keep). set (m1 := set_row m fi f').
      assert (describes m1 R) as D1 by (apply describes_row; auto).
      assert (m_face m1 fi = f') as E1 by (cbn; apply upd_same).
      pose proof (registered m1 R fi D1 NR) as S. rewrite E1 in S.
      specialize (S ltac:(cbn; lia) ltac:(apply retarget_distinct; auto)).
      assert (forall x, In x fis -> m_face m1 x = m_face m x) as KEEP.
      { intros x I. cbn. apply upd_other. intros ->. auto. }
      destruct (register_face m1 fi) as [m2|e|]; cbn [bind]; auto.
      * destruct S as (D2 & (FA & FB & FC & FD) & _).
        specialize (IH m2 (plus R fi) (moved ++ [fi]) D2 N2).
        assert (forall x, In x fis -> moves keep m2 x = moves keep m x) as MM by (intros x I; unfold moves; rewrite FC, KEEP; auto).
        assert (forall x, moved_face drop keep m2 fis x = moved_face drop keep m (fi :: fis) x) as MV.
        { intros x. unfold moved_face. destruct (in_dec Nat.eq_dec x fis) as [I|I], (in_dec Nat.eq_dec x (fi :: fis)) as [J|J].
          - rewrite MM, FC, KEEP by auto. auto.
          - exfalso. apply J. right. auto.
          - destruct J as [->|J]; [|contradiction]. rewrite MF, FC, E1. auto.
          - rewrite FC. cbn. apply upd_other. intros ->. apply J. left. auto. }
        assert (forall x, plus R fi x \/ (In x fis /\ moves keep m2 x = true) <-> R x \/ (In x (fi :: fis) /\ moves keep m x = true)) as RR.
        { intros x. unfold plus. cbn. split.
          - intros [[X| ->]|[X Y]]; auto. rewrite MM in Y by auto. auto.
          - intros [X|[[->|X] Y]]; auto. right. rewrite MM by auto. auto. }
        destruct (move_all m2 drop keep fis (moved ++ [fi])) as [[m' mv]|e|].
        -- destruct IH as (D' & A & B & F & G & E).
           { intros x I. rewrite FB, FC, KEEP by auto. destruct (H x (or_intror I)) as (X & Y & Z). split; [|auto]. intros [W| ->]; auto. }
           split; [apply (describes_ext m' _ _ D' RR)|]. split; [rewrite A, FA; auto|]. split; [rewrite B, FB; auto|].
           split; [intros x; rewrite F; auto|]. split.
           ++ intros x. rewrite G, FD. cbn [m_deleted m1 set_row]. cbn [In]. split.
              ** intros [X|[X Y]]; auto. rewrite MM in Y by auto. auto.
              ** intros [X|[[->|X] Y]]; auto; [congruence|]. right. rewrite MM by auto. auto.
           ++ rewrite E. cbn [filter]. rewrite MF, <- app_assoc. cbn [app]. do 2 f_equal.
              clear - MM. induction fis as [|y l IHl]; auto. cbn [filter].
              rewrite (MM y) by (left; auto). rewrite IHl by (intros x I; apply MM; right; auto). auto.
        -- destruct IH as [-> CL].
           { intros x I. rewrite FB, FC, KEEP by auto. destruct (H x (or_intror I)) as (X & Y & Z). split; [|auto]. intros [W| ->]; auto. }
           split; auto. apply (clash_mono _ _ _ _ CL); [intros x; apply RR|intros x _; apply MV].
        -- apply IH. intros x I. rewrite FB, FC, KEEP by auto. destruct (H x (or_intror I)) as (X & Y & Z). split; [|auto]. intros [W| ->]; auto.
      * destruct S as (-> & CL & _). split; auto. apply (clash_mono _ _ _ _ CL).
        -- intros x [X| ->]; [auto|]. right. split; [left; auto|auto].
        -- intros x X. unfold moved_face. destruct (in_dec Nat.eq_dec x (fi :: fis)) as [J|J].
           ++ destruct X as [X| ->]; [exfalso; apply (H x J); auto|]. rewrite MF, E1. auto.
           ++ cbn. apply upd_other. intros ->. apply J. left. auto.
Qed.

Theorem collapse_spec : forall m h, consistent m -> side (live m) h ->
  let a := tail (m_face m) h in let b := head (m_face m) h in
  let fc := fun fi => retarget (m_face m fi) a b in
  let rest := fun fi => live m fi /\ ~ (has_corner (m_face m fi) a /\ has_corner (m_face m fi) b) in
  match collapse m h with
  | Ok (m', moved) => consistent m' /\ m_nf m' = m_nf m /\ (forall fi, live m' fi <-> rest fi) /\
      (forall fi, rest fi -> m_face m' fi = fc fi) /\ NoDup moved /\
      (forall fi, In fi moved <-> live m fi /\ has_corner (m_face m fi) a /\ ~ has_corner (m_face m fi) b)
  | Throw e => e = ExRuntimeError /\ clash fc rest
  | UB => False
  end.
Proof.
  intros m h [D LC] [LH K] a b fc rest. unfold collapse. pose proof D as (F & _ & _ & NDV & V & B).
  destruct (F _ LH) as [LF DF]. apply Nat.ltb_lt in LF. rewrite LF.
  change (from m h) with a. change (to m h) with b.
  assert (a <? m_nv m = true) as LV by (apply Nat.ltb_lt, B; split; auto).
  set (star := vertex_faces m a).
  assert (forall x, In x star <-> live m x /\ has_corner (m_face m x) a) as ST.
  { intros x. unfold star, vertex_faces. rewrite LV, in_map_iff, has_corner_iff. split.
    - intros (g & <- & I). apply V in I. destruct I as [[L K'] T]. split; auto. exists (snd g). auto.
    - intros (L & k & K' & T). exists (x, k). split; auto. apply V. split; [split; auto|auto]. }
  assert (NoDup star) as ND.
  { unfold star, vertex_faces. rewrite LV. pose proof (NDV a) as N.
    assert (forall g g', In g (m_vh m a) -> In g' (m_vh m a) -> fst g = fst g' -> g = g') as IJ.
    { intros [x k] [x' k'] I I' E. cbn in E. subst x'. apply V in I. apply V in I'. destruct I as [[L K1] T1], I' as [[_ K2] T2].
      f_equal. apply (corner_inj (m_face m x)); auto; [apply F; auto|]. unfold tail in *. cbn [fst snd] in *. congruence. }
    clear - N IJ. induction (m_vh m a) as [|g l IHl]; [constructor|]. inversion N as [|? ? N1 N2]; subst. cbn. constructor.
    - intros I. apply in_map_iff in I. destruct I as (g' & E & I). apply N1. rewrite <- (IJ g' g); auto; [right; auto|left; auto].
    - apply IHl; auto. intros g1 g2 I1 I2. apply IJ; right; auto. }
  destruct (unregister_all_spec star m (live m) D ND) as (m1 & -> & D1 & (A1 & B1 & C1 & G1)).
  { intros x I. apply ST in I. tauto. }
  cbn [bind].
  pose proof (move_all_spec a b star m1 _ [] D1 ND) as S.
  assert (a <> b) as AB by (apply (corners_of_side _ _ DF K)).
  assert (forall x, moves b m1 x = true <-> ~ has_corner (m_face m x) b) as MV.
  { intros x. unfold moves. rewrite C1, negb_true_iff, <- has_vertex_spec. destruct (has_vertex (m_face m x) b); intuition congruence. }
  assert (forall x, moves b m1 x = false <-> has_corner (m_face m x) b) as MV'.
  { intros x. unfold moves. rewrite C1, negb_false_iff, <- has_vertex_spec. tauto. }
  assert (forall f v, has_corner f v \/ ~ has_corner f v) as DEC.
  { intros f v. rewrite <- has_vertex_spec. destruct (has_vertex f v); auto. }
  assert (forall x, ((live m x /\ ~ In x star) \/ (In x star /\ moves b m1 x = true)) <-> rest x) as RR.
  { intros x. rewrite ST, MV. unfold rest. destruct (DEC (m_face m x) a), (DEC (m_face m x) b); tauto. }
  assert (forall x, rest x -> moved_face a b m1 star x = fc x) as FF.
  { intros x [L NB]. unfold moved_face, fc. rewrite C1. destruct (in_dec Nat.eq_dec x star) as [I|I].
    - apply ST in I. assert (moves b m1 x = true) as -> by (apply MV; tauto). auto.
    - assert (~ has_corner (m_face m x) a) as NA by (rewrite ST in I; tauto). destruct (m_face m x) as [[p q] r]. cbn in NA |- *.
      destruct (Nat.eqb_spec p a), (Nat.eqb_spec q a), (Nat.eqb_spec r a); try (exfalso; intuition congruence). auto. }
  assert (forall x, In x star -> ~ (live m x /\ ~ In x star) /\ x < m_nf m1 /\ distinct3 (m_face m1 x)) as PRE.
  { intros x I. split; [tauto|]. rewrite B1, C1. apply F. apply ST in I. tauto. }
  specialize (S PRE).
  destruct (move_all m1 a b star []) as [[m' mv]|e|]; auto.
  - destruct S as (D2 & A2 & B2 & F2 & G2 & E2).
    assert (forall x, live m' x <-> rest x) as LV'.
    { intros x. unfold live at 1. rewrite B2, B1. rewrite <- not_true_iff_false, G2, G1, MV', ST. unfold rest, live. rewrite <- not_true_iff_false.
      tauto. }
    split; [split|].
    + apply (describes_ext _ _ _ D2). intros x. rewrite LV', <- RR. tauto.
    + rewrite A2, A1, B2, B1. auto.
    + split; [congruence|]. split; [auto|]. split; [intros x X; rewrite F2; auto|]. rewrite E2. cbn [app]. split.
      * apply NoDup_filter. auto.
      * intros x. rewrite filter_In, ST, MV. tauto.
  - destruct S as [-> CL]. split; auto. apply (clash_mono _ _ _ _ CL); [intros x; apply RR|intros x X; apply FF, RR; auto].
Qed.

(** ** Histories *)

Theorem perform_consistent : forall m o m', consistent m -> allowed m o -> perform m o = Ok m' -> consistent m'.
Proof.
  intros m o m' C A E. destruct o as [f|a b|fi v|a b v|h]; cbn [perform] in E.
  - pose proof (add_face_spec m f C A) as S. rewrite E in S. tauto.
  - cbn in A. destruct A as (g & h & SG & SH & TG & HG & TH & HH).
    destruct (flip_spec m g h a b (third (m_face m) g) (third (m_face m) h) C) as (_ & S).
    { split; [auto|]. split; [auto|]. split; [auto|]. split; [auto|]. split; [auto|]. split; auto. }
    rewrite E in S. tauto.
  - destruct (insert_in_face_spec m fi v C A) as (m2 & E' & C' & _). congruence.
  - pose proof (insert_on_edge_spec m a b v C A) as S. rewrite E in S. destruct S as [(C' & _) _]. auto.
  - pose proof (collapse_spec m h C A) as S. cbv zeta in S. destruct (collapse m h) as [[m2 mv]|e|]; try discriminate. cbn in E.
    injection E as <-. tauto.
Qed.

Theorem history_consistent : forall m m', consistent m -> reaches m m' -> consistent m'.
Proof. intros m m' C H. induction H; auto. apply IHreaches. eapply perform_consistent; eauto. Qed.

(** No allowed operation has undefined behaviour or fails otherwise than by the manifold check. *)
Theorem perform_safe : forall m o, consistent m -> allowed m o ->
  match perform m o with Ok _ => True | Throw e => e = ExRuntimeError | UB => False end.
Proof.
  intros m o C A. destruct o as [f|a b|fi v|a b v|h]; cbn [perform].
  - pose proof (add_face_spec m f C A) as S. destruct (add_face m f); auto. tauto.
  - cbn in A. destruct A as (g & h & SG & SH & TG & HG & TH & HH).
    destruct (flip_spec m g h a b (third (m_face m) g) (third (m_face m) h) C) as (_ & S).
    { split; [auto|]. split; [auto|]. split; [auto|]. split; [auto|]. split; [auto|]. split; auto. }
    destruct (flip m a b); auto. tauto.
  - destruct (insert_in_face_spec m fi v C A) as (m2 & E' & C' & _). rewrite E'. auto.
  - pose proof (insert_on_edge_spec m a b v C A) as S. destruct (insert_on_edge m a b v); auto. tauto.
  - pose proof (collapse_spec m h C A) as S. cbv zeta in S. destruct (collapse m h) as [[m2 mv]|e|]; cbn; auto. tauto.
Qed.

(** Consequences for readers of the structure. *)
Lemma opposite_involution : forall m g h, consistent m -> m_opp m g = Some h -> m_opp m h = Some g.
Proof. intros m g h [(_ & _ & O & _) _] E. apply O in E. apply O. destruct E as (A & B & C1 & C2). auto. Qed.

(** ** take_faces *)
Theorem take_faces_spec : forall m, exists is, StronglySorted lt is /\ (forall fi, In fi is <-> live m fi) /\
  take_faces m = map (m_face m) is.
Proof.
  intros m. exists (filter (fun fi => negb (m_deleted m fi)) (seq 0 (m_nf m))). split; [|split; [|reflexivity]].
  - generalize (m_nf m) at 1. intros n. generalize 0 as s. induction n as [|n IH]; intros s; cbn [seq filter]; [constructor|].
    destruct (negb (m_deleted m s)); auto. constructor; auto. apply Forall_forall. intros x X.
    apply filter_In in X. destruct X as [X _]. apply in_seq in X. lia.
  - intros fi. rewrite filter_In, in_seq. unfold live. destruct (m_deleted m fi); cbn; intuition (try discriminate; try lia).
Qed.
