From Coq Require Import Reals List Arith Bool Lia Lra.
From Verif Require Import Proofs.PointTriangle Proofs.TriangleIntersect Proofs.TriangleCases Proofs.MeshDefects Proofs.AbstractMesh Proofs.MeshEditing Proofs.MeshHistory
  Proofs.SmootherBend Proofs.Smoother Proofs.ThinnerStar.
From Verif Require Import Model.Outcome Model.Clip Model.PointTriangle Model.Predicates Model.LinAlg Model.MeshDefects Model.AbstractMesh Model.Smoother Model.Thinner
  Spec.PointTriangle Spec.Predicates Spec.VertexClusterer Spec.AbstractMesh Spec.Smoother Spec.Thinner.
Import ListNotations.
Local Open Scope R_scope.

(** * Faces, sides and boxes *)
Lemma in_take : forall m f, In f (take_faces m) <-> exists fi, live m fi /\ m_face m fi = f.
Proof.
  intros m f. unfold take_faces. rewrite in_map_iff. split.
  - intros (fi & E & I). apply filter_In in I. destruct I as [I D]. apply in_seq in I. exists fi. split; [split; [lia|apply negb_true_iff; auto]|auto].
  - intros (fi & [L D] & E). exists fi. split; auto. apply filter_In. split; [apply in_seq; lia|apply negb_true_iff; auto].
Qed.
Lemma sides_in3 : forall f u v, In (u, v) (sides f) <-> in3 f u v.
Proof. intros [[a b] c] u v. cbn. split; [intros [E|[E|[E|[]]]]; injection E as -> ->; auto|intros [[-> ->]|[[-> ->]|[-> ->]]]; auto]. Qed.
Lemma directed_dir : forall m u v, has_directed (take_faces m) u v <-> dir m u v.
Proof.
  intros m u v. split.
  - intros (f & I & S). apply in_take in I. destruct I as (fi & L & <-). exists fi. split; auto. apply sides_in3. auto.
  - intros (fi & L & I). exists (m_face m fi). split; [apply in_take; eauto|apply sides_in3; auto].
Qed.
Lemma used_take : forall m v, used (take_faces m) v <-> exists fi, live m fi /\ has_corner (m_face m fi) v.
Proof.
  intros m v. split.
  - intros (f & I & S). apply in_take in I. destruct I as (fi & L & <-). eauto.
  - intros (fi & L & S). exists (m_face m fi). split; [apply in_take; eauto|auto].
Qed.
Lemma used_dir : forall m v, used (take_faces m) v <-> exists u, dir m v u.
Proof.
  intros m v. rewrite used_take. split.
  - intros (fi & L & C). destruct (corner_side _ _ C) as (u & I). exists u, fi. auto.
  - intros (u & fi & L & I). exists fi. split; auto. apply (in3_corner _ _ _ I).
Qed.
Lemma joined_false : forall m u v, consistent m -> joined m u v = false -> ~ dir m u v /\ ~ dir m v u.
Proof.
  intros m u v [D _] J. unfold joined in J. destruct (halfedge_of m u v) eqn:E1; [destruct (halfedge_of m v u); discriminate|].
  destruct (halfedge_of m v u) eqn:E2; [discriminate|].
  split; rewrite dir_side; intros (h & S & A & B); [apply (halfedge_of_none m (live m) u v D E1 h); auto|apply (halfedge_of_none m (live m) v u D E2 h); auto].
Qed.
Lemma has_vertex_iff : forall f v, has_vertex f v = true <-> has_corner f v.
Proof.
  intros [[a b] c] v. cbn. rewrite !orb_true_iff, !Nat.eqb_eq. split; [intros [[->| ->]| ->]; auto|intros [->|[->| ->]]; auto].
Qed.
Lemma box_of : forall xs x e, In e (x :: xs) -> in_box (lo_of x xs) (hi_of x xs) e.
Proof.
  assert (W : forall xs x e, in_box x x e \/ (exists y z, in_box y z e /\ in_box (lo_of x xs) (hi_of x xs) y) -> True) by auto. clear W.
  assert (G : forall xs l h, px l <= px h -> py l <= py h -> pz l <= pz h ->
     (forall e, in_box l h e \/ In e xs -> in_box (fold_left lo2 xs l) (fold_left hi2 xs h) e)).
  { induction xs as [|y xs IH]; intros l h X Y Z e H; cbn [fold_left].
    - destruct H as [H|[]]. exact H.
    - apply IH; cbn [lo2 hi2 px py pz fst snd].
      + unfold lo2, hi2, px, py, pz in *. cbn [fst snd]. pose proof (Rmin_l (fst (fst l)) (fst (fst y))). pose proof (Rmax_l (fst (fst h)) (fst (fst y))). lra.
      + unfold lo2, hi2, px, py, pz in *. cbn [fst snd]. pose proof (Rmin_l (snd (fst l)) (snd (fst y))). pose proof (Rmax_l (snd (fst h)) (snd (fst y))). lra.
      + unfold lo2, hi2, px, py, pz in *. cbn [fst snd]. pose proof (Rmin_l (snd l) (snd y)). pose proof (Rmax_l (snd h) (snd y)). lra.
      + destruct H as [H|[->|H]]; [left|left|right; auto].
        * unfold in_box, lo2, hi2, px, py, pz in *. cbn [fst snd].
          pose proof (Rmin_l (fst (fst l)) (fst (fst y))). pose proof (Rmax_l (fst (fst h)) (fst (fst y))).
          pose proof (Rmin_l (snd (fst l)) (snd (fst y))). pose proof (Rmax_l (snd (fst h)) (snd (fst y))).
          pose proof (Rmin_l (snd l) (snd y)). pose proof (Rmax_l (snd h) (snd y)). lra.
        * unfold in_box, lo2, hi2, px, py, pz in *. cbn [fst snd].
          pose proof (Rmin_r (fst (fst l)) (fst (fst e))). pose proof (Rmax_r (fst (fst h)) (fst (fst e))).
          pose proof (Rmin_r (snd (fst l)) (snd (fst e))). pose proof (Rmax_r (snd (fst h)) (snd (fst e))).
          pose proof (Rmin_r (snd l) (snd e)). pose proof (Rmax_r (snd h) (snd e)). lra. }
  intros xs x e H. apply G; try lra. destruct H as [->|H]; [left; unfold in_box; lra|auto].
Qed.
Lemma retarget_corner : forall f a b v, has_corner (retarget f a b) v -> (has_corner f v /\ v <> a) \/ (has_corner f a /\ v = b).
Proof.
  intros [[x y] z] a b v H. cbn in H. destruct (Nat.eqb_spec x a), (Nat.eqb_spec y a), (Nat.eqb_spec z a); subst; cbn; intuition (subst; auto 10).
Qed.
Lemma retarget_has : forall f a b, has_corner f a -> has_corner (retarget f a b) b.
Proof. intros [[x y] z] a b H. cbn in *. destruct H as [<-|[<-|<-]]; rewrite Nat.eqb_refl; auto. Qed.
Lemma retarget_distinct : forall f a b, distinct3 f -> ~ has_corner f b -> distinct3 (retarget f a b).
Proof.
  intros [[x y] z] a b D N. cbn in *. destruct (Nat.eqb_spec x a), (Nat.eqb_spec y a), (Nat.eqb_spec z a); subst; intuition congruence.
Qed.

(** * The emitted mesh *)
Section Emit.
Variable nv : nat.
Lemma place_spec : forall r vv, match place r vv with Some k => (k < length vv)%nat /\ nth k vv 0%nat = r | None => ~ In r vv end.
Proof.
  intros r. induction vv as [|x vv IH]; cbn [place]; [intros []|].
  destruct (Nat.eqb_spec x r) as [->|N]; [cbn [length nth]; split; [lia|reflexivity]|].
  destruct (place r vv) as [k|]; cbn [option_map].
  - cbn [length nth]. destruct IH. split; [lia|assumption].
  - intros [Z|Z]; contradiction.
Qed.
Lemma nodup_snoc : forall (l : list nat) x, NoDup l -> ~ In x l -> NoDup (l ++ [x]).
Proof.
  intros l x N I. apply NoDup_rev in N. rewrite <- (rev_involutive (l ++ [x])). apply NoDup_rev. rewrite rev_app_distr. cbn. constructor; auto. rewrite <- in_rev. auto.
Qed.
Lemma visit_spec : forall vv r, NoDup vv -> (r < nv)%nat -> exists k vv', visit nv vv r = Ok (k, vv') /\ NoDup vv' /\ (exists ext, vv' = vv ++ ext /\ incl ext [r]) /\
  (k < length vv')%nat /\ nth k vv' 0%nat = r.
Proof.
  intros vv r ND L. unfold visit. replace (nv <=? r)%nat with false by (symmetry; apply Nat.leb_gt; auto).
  pose proof (place_spec r vv) as S0. destruct (place r vv) as [j|].
  - exists j, vv. split; auto. split; auto. split; [exists []; rewrite app_nil_r; split; auto; intros x []|auto].
  - exists (length vv), (vv ++ [r]). split; auto. split; [apply nodup_snoc; auto|]. split; [exists [r]; split; auto; intros x X; auto|].
    rewrite app_length. cbn [length]. split; [lia|]. rewrite app_nth2, Nat.sub_diag by lia. reflexivity.
Qed.
Lemma nth_ext_app : forall (vv ext : list nat) k, (k < length vv)%nat -> nth k (vv ++ ext) 0%nat = nth k vv 0%nat.
Proof. intros. apply app_nth1. auto. Qed.

Lemma emit_spec : forall fs vv, NoDup vv -> (forall f v, In f fs -> has_corner f v -> (v < nv)%nat) ->
  exists vv' gs, emit nv vv fs = Ok (vv', gs) /\ NoDup vv' /\ (exists ext, vv' = vv ++ ext) /\ map (in_rows vv') gs = fs /\
    (forall f k, In f gs -> has_corner f k -> (k < length vv')%nat) /\ (forall k, In k vv' -> In k vv \/ used fs k).
Proof.
  induction fs as [|[[a b] c] fs IH]; intros vv ND B; cbn [emit].
  - exists vv, []. split; auto. split; auto. split; [exists []; symmetry; apply app_nil_r|]. split; [reflexivity|]. split; [intros ? ? []|auto].
  - destruct (visit_spec vv a ND) as (x & v1 & -> & N1 & (e1 & -> & X1) & L1 & G1); [apply (B (a, b, c)); cbn; auto|]. cbn [bind fst snd].
    destruct (visit_spec _ b N1) as (y & v2 & -> & N2 & (e2 & -> & X2) & L2 & G2); [apply (B (a, b, c)); cbn; auto|]. cbn [bind fst snd].
    destruct (visit_spec _ c N2) as (z & v3 & -> & N3 & (e3 & -> & X3) & L3 & G3); [apply (B (a, b, c)); cbn; auto|]. cbn [bind fst snd].
    destruct (IH _ N3) as (v4 & gs & -> & N4 & (e4 & ->) & M & R & U); [intros f v F; apply B; right; auto|]. cbn [bind fst snd].
    eexists. eexists. split; [reflexivity|]. split; [exact N4|]. split; [exists (e1 ++ e2 ++ e3 ++ e4); rewrite !app_assoc; auto|]. split; [|split].
    + cbn [map]. rewrite M. f_equal. cbn [in_rows]. assert (Q : forall k (l e : list nat), (k < length l)%nat -> (k < length (l ++ e))%nat) by (intros; rewrite app_length; lia).
      rewrite (nth_ext_app _ e4 x), (nth_ext_app _ e3 x), (nth_ext_app _ e2 x) by auto. rewrite (nth_ext_app _ e4 y), (nth_ext_app _ e3 y) by auto. rewrite (nth_ext_app _ e4 z) by auto. congruence.
    + intros f k [<-|F] K; [|eauto]. cbn in K. rewrite !app_length in *. destruct K as [->|[->| ->]]; lia.
    + intros k K. destruct (U k K) as [K'|(f & F & C)]; [|right; exists f; split; [right; auto|auto]].
      assert (K2 : In k vv \/ In k e1 \/ In k e2 \/ In k e3) by (rewrite !in_app_iff in K'; intuition auto).
      destruct K2 as [K2|[K2|[K2|K2]]]; [auto|apply X1 in K2|apply X2 in K2|apply X3 in K2]; destruct K2 as [<-|[]]; right; exists (a, b, c); cbn; auto.
Qed.
End Emit.

Section Thin.
Variables (nv : nat) (p ap : nat -> pt) (n_points : nat) (point target : nat -> pt) (tol : nat -> R) (max_edge2 : R).
Variables (near : pt -> pt -> list nat) (faces_near : mesh -> pt -> pt -> list nat).
Hypothesis NP : finds_points n_points target tol near.
Hypothesis NF : finds_faces p faces_near.
Notation snapped := (snapped p n_points point).
Notation collapse_ok := (collapse_ok p ap n_points point target tol max_edge2 near faces_near).
Notation try_collapse := (try_collapse p ap n_points point target tol max_edge2 near faces_near).

Section Vertex.
Variables (m : mesh) (a : nat).
Hypothesis CO : consistent m.
Hypothesis SA : separate ap (take_faces m).
Hypothesis SP : separate p (take_faces m).
Notation hs := (m_vh m a).
Hypothesis OP : forall h, In h hs -> m_opp m h <> None.

Lemma star_iff : forall fi, in_star hs fi = true <-> live m fi /\ has_corner (m_face m fi) a.
Proof using CO.
  intros fi. pose proof CO as [(_ & _ & _ & _ & VH & _) _]. unfold in_star. rewrite existsb_exists. split.
  - intros (h & I & E). apply Nat.eqb_eq in E. subst fi. apply VH in I. destruct I as ([L K] & T). split; auto. apply has_corner_iff. exists (snd h). auto.
  - intros (L & C). apply has_corner_iff in C. destruct C as (k & K & T). exists (fi, k). split; [|apply Nat.eqb_refl]. apply VH. split; [split; auto|exact T].
Qed.
Lemma star_face : forall h, In h hs -> live m (fst h) /\ has_corner (m_face m (fst h)) a.
Proof using CO.
  intros h I. apply star_iff. unfold in_star. apply existsb_exists. exists h. split; auto. apply Nat.eqb_refl.
Qed.
Lemma staying_iff : forall b f, In f (staying m a b hs) <-> exists fi, live m fi /\ m_face m fi = f /\ has_corner f a /\ ~ has_corner f b.
Proof using CO.
  intros b f. unfold staying. rewrite filter_In, in_map_iff. unfold on_edge. rewrite negb_true_iff, andb_false_iff. split.
  - intros [(h & <- & I) H]. destruct (star_face h I) as [L C]. exists (fst h). split; auto. split; auto. split; auto.
    rewrite <- !has_vertex_iff in *. intros X. destruct H; congruence.
  - intros (fi & L & <- & C & N). split.
    + assert (I : in_star hs fi = true) by (apply star_iff; auto). unfold in_star in I. apply existsb_exists in I. destruct I as (h & I & E). apply Nat.eqb_eq in E. exists h. subst. auto.
    + right. apply not_true_iff_false. rewrite has_vertex_iff. auto.
Qed.
Lemma live_used : forall fi v, live m fi -> has_corner (m_face m fi) v -> used (take_faces m) v.
Proof using Type. intros fi v L C. apply used_take. eauto. Qed.

(** The guard answers; its no means that the kept faces meet the faces off the star properly. *)
Lemma meets_ok : forall kept, (forall f, In f kept -> distinct3 f /\ forall v, has_corner f v -> used (take_faces m) v) ->
  exists r, meets p faces_near m hs kept = Ok r /\
    (r = false -> forall f fi, In f kept -> live m fi -> ~ has_corner (m_face m fi) a -> clear (at_rows p f) (at_rows p (m_face m fi))).
Proof using NF CO SP.
  induction kept as [|f kept IH]; intros K; cbn [meets]; [exists false; split; [auto|intros _ ? ? []]|].
  destruct (K f (or_introl eq_refl)) as [D U]. pose proof (corners_separate p (take_faces m) f SP U D) as CF.
  destruct (at_rows p f) as [[x y] e] eqn:EF. set (lo := lo_of x [y; e]). set (hi := hi_of x [y; e]).
  assert (DC : forall fi, live m fi -> distinct_corners (at_rows p (m_face m fi))).
  { intros fi L. apply (corners_separate p (take_faces m)); auto; [intros v; apply live_used; auto|apply (live_distinct m CO); auto]. }
  destruct (any_of_ok (faces_near m lo hi) (fun gi => if in_star hs gi then Ok false else triangles_intersect (x, y, e) (at_rows p (m_face m gi)))) as (r & ER & HR).
  { intros fi I. destruct (in_star hs fi); [exists false; reflexivity|]. apply no_throw; [exact CF|]. apply DC. apply (NF m lo hi). exact I. }
  rewrite ER. cbn [bind]. destruct r; [exists true; split; [auto|discriminate]|].
  destruct IH as (r & -> & HI); [intros; apply K; right; auto|]. exists r. split; auto. intros R g fi [<-|G] L C; [|auto].
  rewrite EF. intros (z & IZ & JZ & NZ). specialize (HR eq_refl fi).
  assert (I : In fi (faces_near m lo hi)). { apply (proj2 (NF m lo hi fi) z); auto. apply triangle_box. exact IZ. }
  specialize (HR I). replace (in_star hs fi) with false in HR by (symmetry; apply not_true_iff_false; rewrite star_iff; intros [_ Q]; exact (C Q)).
  rewrite (intersect_complete (x, y, e) (at_rows p (m_face m fi)) CF (DC fi L) z IZ JZ NZ) in HR. discriminate.
Qed.

(** What an admissible collapse is. *)
Record admissible (h o : halfedge) : Prop := {
  ad_in : In h hs; ad_opp : m_opp m h = Some o;
  ad_snapped : snapped (to m h) = true;
  ad_link : linked m (to m h) (apex m h) (apex m o) hs = false;
  ad_unflipped : forall f, In f (staying m a (to m h) hs) -> 0 <= dot3 (normal ap (retarget f a (to m h))) (normal ap f);
  ad_some : staying m a (to m h) hs <> [];
  ad_short : too_long ap max_edge2 m (to m h) (apex m h) (apex m o) hs = false;
  ad_points : keeps_points ap n_points target tol near m hs (map (fun f => retarget f a (to m h)) (staying m a (to m h) hs)) = true;
  ad_clear : forall f fi, In f (staying m a (to m h) hs) -> live m fi -> ~ has_corner (m_face m fi) a ->
    clear (at_rows p (retarget f a (to m h))) (at_rows p (m_face m fi)) }.

Lemma from_a : forall h, In h hs -> from m h = a.
Proof using CO. intros h I. pose proof CO as [(_ & _ & _ & _ & VH & _) _]. apply VH in I. apply I. Qed.
Lemma to_used : forall h, In h hs -> used (take_faces m) (to m h).
Proof using CO.
  intros h I. pose proof CO as [(_ & _ & _ & _ & VH & _) _]. apply VH in I. destruct I as ([L K] & _). apply (live_used (fst h)); auto. apply has_corner_iff.
  exists (ccw (snd h)). split; [apply ccw_lt; auto|reflexivity].
Qed.
Lemma collapse_ok_spec : forall h, In h hs -> exists r, collapse_ok m h hs = Ok r /\ (fst r = true -> exists o, admissible h o).
Proof using NF CO SP OP.
  intros h I. unfold Thinner.collapse_ok. rewrite (from_a h I). destruct (m_opp m h) as [o|] eqn:EO; [|destruct (OP h I EO)].
  destruct (snapped (to m h)) eqn:SN; cbn [negb]; [|eexists; split; [reflexivity|discriminate]].
  destruct (linked m (to m h) (apex m h) (apex m o) hs) eqn:LI; [eexists; split; [reflexivity|discriminate]|].
  destruct (existsb _ (staying m a (to m h) hs)) eqn:FL; [eexists; split; [reflexivity|discriminate]|].
  set (kept := map (fun f => retarget f a (to m h)) (staying m a (to m h) hs)).
  destruct (match kept with [] => true | _ => false end) eqn:KE; [eexists; split; [reflexivity|discriminate]|].
  destruct (too_long ap max_edge2 m (to m h) (apex m h) (apex m o) hs) eqn:TL; [eexists; split; [reflexivity|discriminate]|].
  destruct (keeps_points ap n_points target tol near m hs kept) eqn:KP; cbn [negb]; [|eexists; split; [reflexivity|discriminate]].
  destruct (meets_ok kept) as (r & -> & HM).
  { intros f F. unfold kept in F. apply in_map_iff in F. destruct F as (g & <- & G). apply staying_iff in G. destruct G as (fi & L & <- & C & N). split.
    - apply retarget_distinct; auto. apply (live_distinct m CO); auto.
    - intros v V. apply retarget_corner in V. destruct V as [[V _]|[_ ->]]; [apply (live_used fi); auto|apply to_used; auto]. }
  cbn [bind]. eexists. split; [reflexivity|]. cbn [fst]. intros R. apply negb_true_iff in R. exists o. constructor; auto.
  - intros f F. apply Rnot_lt_le. intros X. apply not_true_iff_false in FL. apply FL, existsb_exists. exists f. split; auto. unfold ltb. destruct (Rlt_dec _ _); auto.
  - intros E. unfold kept in KE. rewrite E in KE. discriminate.
  - intros f fi F L C. apply HM; auto. apply in_map_iff. eauto.
Qed.

Lemma choose_spec : forall rest best, incl rest hs ->
  (forall h d, best = Some (h, d) -> exists o, admissible h o) ->
  exists r, choose p ap n_points point target tol max_edge2 near faces_near m hs rest best = Ok r /\
    forall h d, r = Some (h, d) -> exists o, admissible h o.
Proof using NF CO SP OP.
  induction rest as [|h rest IH]; intros best IN B; cbn [choose]; [exists best; auto|].
  destruct (collapse_ok_spec h) as (r & -> & HR); [apply IN; left; auto|]. cbn [bind]. apply IH; [intros x X; apply IN; right; auto|].
  destruct r as [ok dev]. cbn [fst snd] in *. destruct ok; cbn [andb]; [|auto]. destruct (less dev (option_map snd best)); [|auto].
  destruct dev as [d|]; [|auto]. intros h' d' E. injection E as <- <-. auto.
Qed.

(** * One collapse *)
Section Collapse.
Variables (h o : halfedge).
Hypothesis AD : admissible h o.
Notation b := (to m h). Notation c := (apex m h). Notation d := (apex m o).
Lemma h_side : side (live m) h /\ tail (m_face m) h = a.
Proof using CO AD. pose proof CO as [(_ & _ & _ & _ & VH & _) _]. apply VH. apply (ad_in _ _ AD). Qed.
Lemma star_interior : forall u, dir m u a <-> dir m a u.
Proof using CO OP. apply (ThinnerStar.interior m CO a OP). Qed.
Lemma outgoing_dir : forall u, dir m a u -> exists hh, In hh hs /\ to m hh = u.
Proof using CO.
  intros u (fi & L & I). apply in3_iff in I. destruct I as (k & K & A & B). pose proof CO as [(_ & _ & _ & _ & VH & _) _].
  exists (fi, k). split; [apply VH; split; [split; auto|exact A]|exact B].
Qed.
Lemma star_link : forall u, dir m a u -> u <> b -> u <> c -> u <> d -> ~ dir m u b /\ ~ dir m b u.
Proof using CO AD.
  intros u D Nb Nc Nd. destruct (outgoing_dir u D) as (hh & I & E). apply joined_false; auto. pose proof (ad_link _ _ AD) as L.
  apply not_true_iff_false in L. apply not_true_iff_false. intros J. apply L. unfold linked. apply existsb_exists. exists hh. split; auto. rewrite E.
  apply Nat.eqb_neq in Nb, Nc, Nd. rewrite Nb, Nc, Nd, J. reflexivity.
Qed.
Lemma star_short : forall u, dir m a u -> u <> b -> u <> c -> u <> d -> norm2 (sub3 (ap b) (ap u)) <= max_edge2.
Proof using CO AD.
  intros u D Nb Nc Nd. destruct (outgoing_dir u D) as (hh & I & E). apply Rnot_lt_le. intros J. pose proof (ad_short _ _ AD) as L.
  apply not_true_iff_false in L. apply L. unfold too_long. apply existsb_exists. exists hh. split; auto. rewrite E.
  apply Nat.eqb_neq in Nb, Nc, Nd. rewrite Nb, Nc, Nd. unfold ltb. destruct (Rlt_dec _ _); [reflexivity|contradiction].
Qed.
Notation rest := (rest m a b).
Lemma collapses : exists m' moved, collapse m h = Ok (m', moved) /\ consistent m' /\ m_nf m' = m_nf m /\
  (forall fi, live m' fi <-> rest fi) /\ (forall fi, rest fi -> m_face m' fi = retarget (m_face m fi) a b).
Proof using CO OP AD.
  destruct h_side as [S T]. apply (collapse_ok_star m CO a b c d h o); auto; [apply (ad_opp _ _ AD)|apply star_interior|apply star_link].
Qed.

Variable m' : mesh.
Hypothesis CO' : consistent m'.
Hypothesis LV : forall fi, live m' fi <-> rest fi.
Hypothesis FC : forall fi, rest fi -> m_face m' fi = retarget (m_face m fi) a b.
Lemma c_dir : forall u v, dir m' u v <-> u <> a /\ v <> a /\
  ((dir m u v /\ ~ in_fold b c d u v) \/ (u = b /\ dir m a v /\ v <> b /\ v <> c /\ v <> d) \/ (v = b /\ dir m u a /\ u <> b /\ u <> c /\ u <> d)).
Proof using CO OP AD LV FC. destruct h_side as [S T]. apply (dir_after m CO a b c d h o); auto; [apply (ad_opp _ _ AD)|apply star_interior|apply star_link]. Qed.
Lemma c_boundary : forall u v, on_boundary (take_faces m') u v <-> on_boundary (take_faces m) u v.
Proof using CO OP AD LV FC.
  intros u v. unfold on_boundary. rewrite !directed_dir. destruct h_side as [S T].
  apply (boundary_after m CO a b c d h o); auto; [apply (ad_opp _ _ AD)|apply star_interior|apply star_link].
Qed.
Lemma c_used : forall v, used (take_faces m') v -> v <> a /\ used (take_faces m) v.
Proof using CO OP AD LV FC.
  intros v. rewrite !used_dir. destruct h_side as [S T].
  apply (used_after m CO a b c d h o); auto; [apply (ad_opp _ _ AD)|apply star_interior|apply star_link].
Qed.
Lemma c_kept : c <> d -> forall v, v <> a -> used (take_faces m) v -> used (take_faces m') v.
Proof using CO OP AD LV FC.
  intros N v. rewrite !used_dir. destruct h_side as [S T].
  apply (kept_after m CO a b c d h o); auto; [apply (ad_opp _ _ AD)|apply star_interior|apply star_link].
Qed.
Lemma c_gone : ~ live m' (fst h) /\ live m (fst h).
Proof using CO OP AD LV FC.
  destruct h_side as [S T]. split; [|apply S]. rewrite LV, (rest_iff m CO a b c d h o); auto; [tauto|apply (ad_opp _ _ AD)].
Qed.
Lemma rest_live : forall fi, rest fi -> live m fi. Proof using Type. intros fi [L _]. exact L. Qed.
Lemma c_edges : forall u v, dir m' u v -> dir m u v \/ norm2 (sub3 (ap u) (ap v)) <= max_edge2.
Proof using CO OP AD LV FC.
  intros u v D. apply c_dir in D. destruct D as (_ & _ & [[D _]|[(-> & D & N1 & N2 & N3)|(-> & D & N1 & N2 & N3)]]); [auto|right; apply star_short; auto|right].
  replace (norm2 (sub3 (ap u) (ap b))) with (norm2 (sub3 (ap b) (ap u))) by (unfold norm2, sub3, dot3, px, py, pz; cbn [fst snd]; ring).
  apply star_short; auto. apply star_interior. auto.
Qed.
Lemma c_unflipped : forall fi, live m' fi -> has_corner (m_face m fi) a -> 0 <= dot3 (normal ap (m_face m' fi)) (normal ap (m_face m fi)).
Proof using CO AD LV FC.
  intros fi L C. apply LV in L. rewrite FC by auto. apply (ad_unflipped _ _ AD). apply staying_iff. exists fi. destruct L as [L N]. split; [exact L|split; [reflexivity|split; [assumption|intros Q; apply N; split; assumption]]].
Qed.
Lemma c_new : forall fi, live m' fi -> (has_corner (m_face m fi) a /\ In (m_face m fi) (staying m a b hs) /\ m_face m' fi = retarget (m_face m fi) a b) \/
   (~ has_corner (m_face m fi) a /\ m_face m' fi = m_face m fi).
Proof using CO LV FC.
  intros fi L. apply LV in L. destruct (has_vertex (m_face m fi) a) eqn:E.
  - apply has_vertex_iff in E. left. split; auto. split; [|auto]. apply staying_iff. exists fi. destruct L as [L N]. split; [exact L|split; [reflexivity|split; [assumption|intros Q; apply N; split; assumption]]].
  - right. apply not_true_iff_false in E. rewrite has_vertex_iff in E. split; auto. apply (untouched m a b m' FC); [apply L|auto].
Qed.
Lemma c_crossings : forall fs, crossings_kept p fs (take_faces m) -> crossings_kept p fs (take_faces m').
Proof using CO AD LV FC.
  intros fs H f g F G N. apply in_take in F, G. destruct F as (i & LI & <-), G as (j & LJ & <-).
  destruct (c_new i LI) as [(CI & SI & EI)|(CI & EI)], (c_new j LJ) as [(CJ & SJ & EJ)|(CJ & EJ)]; rewrite EI, EJ in *.
  - right. left. exists b. split; apply retarget_has; auto.
  - left. apply (ad_clear _ _ AD); auto. apply rest_live, LV; auto.
  - left. apply clear_sym, (ad_clear _ _ AD); auto. apply rest_live, LV; auto.
  - apply H; auto; apply in_take; [exists i|exists j]; (split; [apply rest_live, LV; auto|auto]).
Qed.
Lemma c_honored : forall i, (i < n_points)%nat -> honored ap target tol (take_faces m) i -> honored ap target tol (take_faces m') i.
Proof using NP CO SA OP AD CO' LV FC.
  intros i I (f & z & FI & IN & DI). apply in_take in FI. destruct FI as (j & J & <-).
  destruct (has_vertex (m_face m j) a) eqn:E.
  2: { apply not_true_iff_false in E. rewrite has_vertex_iff in E. destruct (untouched m a b m' FC j J E) as [R EF].
       exists (m_face m j), z. split; auto. apply in_take. exists j. split; [apply LV; auto|auto]. }
  apply has_vertex_iff in E. pose proof (ad_points _ _ AD) as K. unfold keeps_points in K.
  replace (n_points =? 0)%nat with false in K by (symmetry; apply Nat.eqb_neq; lia).
  assert (SI : in_star hs j = true) by (apply star_iff; auto). unfold in_star in SI. apply existsb_exists in SI. destruct SI as (g & GI & GE). apply Nat.eqb_eq in GE.
  assert (PT : forall v, has_corner (m_face m j) v -> In (ap v) (star_points ap m hs)).
  { intros v V. unfold star_points. apply in_map, in_flat_map. exists g. split; auto. rewrite GE. destruct (m_face m j) as [[x y] e]. cbn in *. intuition. }
  assert (HJ : honored_by ap target tol i (m_face m j) = true).
  { apply (honored_by_iff ap target tol (take_faces m)); auto; [intros v; apply live_used; auto|apply (live_distinct m CO); auto|eauto]. }
  destruct (star_points ap m hs) as [|x xs] eqn:ES.
  { exfalso. apply (PT a E). }
  rewrite forallb_forall in K. specialize (K i).
  assert (B : In i (near (lo_of x xs) (hi_of x xs))).
  { apply (NP _ _ i z); auto. destruct (m_face m j) as [[u v] w]. apply (convex_box _ _ (ap u) (ap v) (ap w)); auto; apply box_of, PT; cbn; auto. }
  specialize (K B). apply orb_true_iff in K. destruct K as [K|K].
  { exfalso. apply negb_true_iff, not_true_iff_false in K. apply K, existsb_exists. exists g. rewrite GE. auto. }
  apply existsb_exists in K. destruct K as (f & F & HF).
  assert (R : In f (take_faces m')).
  { apply in_app_iff in F. destruct F as [F|F].
    - apply in_map_iff in F. destruct F as (f0 & <- & F). apply staying_iff in F. destruct F as (k & LK & <- & CK & NK).
      assert (RK : rest k) by (split; [auto|tauto]). apply in_take. exists k. split; [apply LV; auto|auto].
    - unfold nearby in F. apply in_map_iff in F. destruct F as (k & <- & F). apply filter_In in F. destruct F as [F S].
      apply in_flat_map in F. destruct F as (g0 & _ & F). apply in_flat_map in F. destruct F as (v & _ & F).
      unfold vertex_faces in F. destruct (v <? m_nv m)%nat; [|destruct F]. apply in_map_iff in F. destruct F as (hh & <- & F).
      pose proof CO as [(_ & _ & _ & _ & VH & _) _]. apply VH in F. destruct F as ([LF _] & _).
      apply negb_true_iff, not_true_iff_false in S. rewrite star_iff in S. destruct (untouched m a b m' FC (fst hh) LF) as [RK EF]; [tauto|].
      apply in_take. exists (fst hh). split; [apply LV; auto|auto]. }
  pose proof R as R'. apply in_take in R'. destruct R' as (k & KL & EK).
  assert (SEP' : separate ap (take_faces m')). { intros u v U V. apply SA; apply c_used; auto. }
  apply (honored_by_iff ap target tol (take_faces m')) in HF; auto.
  - destruct HF as (z' & IZ & DZ). exists f, z'. auto.
  - intros v V. exists f. auto.
  - rewrite <- EK. apply (live_distinct m' CO'); auto.
Qed.
Lemma c_dropped : dropped ap m m' a b.
Proof using CO OP AD LV FC.
  destruct h_side as [S T]. pose proof CO as [(_ & _ & OS & _) _]. pose proof (proj1 (OS h o) (ad_opp _ _ AD)) as (_ & SO & TO & HO).
  assert (Sab : has_side m a b) by (exists h; auto).
  assert (TO' : tail (m_face m) o = b) by (symmetry; exact HO). assert (HO' : head (m_face m) o = a) by (rewrite <- TO; exact T).
  split; [exact Sab|]. split; [exists o; auto|]. split; [intros u; rewrite <- !dir_side; apply star_interior|]. split; [exact LV|].
  split; [intros fi L; apply FC, LV; auto|]. split; [apply c_unflipped|].
  intros NFo w. split; [intros U; split; apply c_used; auto|]. intros [U N]. apply c_kept; auto. intros E. apply NFo. exists h, o. repeat split; auto; try apply S; try apply SO.
Qed.
End Collapse.

Lemma try_spec : exists r, match choose p ap n_points point target tol max_edge2 near faces_near m hs hs None with
    | Ok None => Ok (m, false) | Ok (Some (h, _)) => (let* r := collapse m h in Ok (fst r, true)) | Throw e => Throw e | UB => UB end = Ok r /\
  (r = (m, false) \/ exists h o m', r = (m', true) /\ admissible h o /\ consistent m' /\ m_nf m' = m_nf m /\
     (forall fi, live m' fi <-> rest m a (to m h) fi) /\ (forall fi, rest m a (to m h) fi -> m_face m' fi = retarget (m_face m fi) a (to m h))).
Proof using NF CO SP OP.
  destruct (choose_spec hs None) as (r & -> & H); [intros x X; auto|discriminate|]. destruct r as [[h d]|]; [|eexists; split; [reflexivity|auto]].
  destruct (H h d eq_refl) as (o & AD). destruct (collapses h o AD) as (m' & moved & -> & C' & N' & L' & F'). cbn [bind fst].
  eexists. split; [reflexivity|]. right. exists h, o, m'. split; auto.
Qed.
End Vertex.

(** * The sweeps *)
Definition count (m : mesh) : nat := length (take_faces m).
Record thinned (m0 m : mesh) : Prop := {
  th_co : consistent m; th_nf : m_nf m = m_nf m0;
  th_used : forall v, used (take_faces m) v -> used (take_faces m0) v;
  th_boundary : forall u v, on_boundary (take_faces m) u v <-> on_boundary (take_faces m0) u v;
  th_edges : forall u v, has_directed (take_faces m) u v -> has_directed (take_faces m0) u v \/ norm2 (sub3 (ap u) (ap v)) <= max_edge2;
  th_honored : forall i, (i < n_points)%nat -> honored ap target tol (take_faces m0) i -> honored ap target tol (take_faces m) i;
  th_crossings : crossings_kept p (take_faces m0) (take_faces m) }.

Lemma thinned_refl : forall m, consistent m -> thinned m m.
Proof using Type. intros m C. constructor; auto; [intros u v; split; auto|intros f g F G N; auto]. Qed.

Lemma count_less : forall (m m' : mesh) x, m_nf m' = m_nf m -> (forall fi, live m' fi -> live m fi) -> live m x -> ~ live m' x -> (count m' < count m)%nat.
Proof using Type.
  intros m m' x N S L NL. unfold count, take_faces. rewrite !map_length, N. destruct L as [LX DX].
  assert (DX' : m_deleted m' x = true). { apply not_false_iff_true. intros E. apply NL. split; [lia|auto]. }
  assert (S' : forall i, (i < m_nf m)%nat -> m_deleted m' i = false -> m_deleted m i = false). { intros i I E. apply S. split; [lia|auto]. }
  clear S NL N. revert LX S'. induction (m_nf m) as [|n IH]; intros LX S'; [lia|]. rewrite seq_S. cbn [Nat.add]. rewrite !filter_app, !app_length. cbn [filter].
  assert (LE : forall k, (k <= S n)%nat -> (length (filter (fun fi => negb (m_deleted m' fi)) (seq 0 k)) <= length (filter (fun fi => negb (m_deleted m fi)) (seq 0 k)))%nat).
  { induction k as [|k IK]; intros K; [cbn; lia|]. rewrite seq_S. cbn [Nat.add]. rewrite !filter_app, !app_length. cbn [filter].
    specialize (IK ltac:(lia)). specialize (S' k ltac:(lia)). destruct (m_deleted m' k), (m_deleted m k); cbn [negb length]; try lia; specialize (S' eq_refl); discriminate. }
  destruct (Nat.eq_dec x n) as [->|NE].
  - specialize (LE n ltac:(lia)). rewrite DX, DX'. cbn [negb length]. lia.
  - specialize (IH ltac:(lia) ltac:(intros; apply S'; auto)). specialize (S' n ltac:(lia)).
    destruct (m_deleted m' n), (m_deleted m n); cbn [negb length]; try lia; specialize (S' eq_refl); discriminate.
Qed.

Notation is_snapped := (fun v => snapped v = true).
Lemma try_collapse_spec : forall m0 m v, separate ap (take_faces m0) -> separate p (take_faces m0) -> thinned m0 m ->
  exists r, try_collapse m v = Ok r /\ thinned m0 (fst r) /\
    if snd r then (count (fst r) < count m)%nat /\ exists b, snapped b = true /\ dropped ap m (fst r) v b
    else fst r = m.
Proof using NP NF.
  intros m0 m v SA SP T. destruct T as [C N U B E H X]. unfold Thinner.try_collapse.
  destruct (length (outgoing m v) <? 3)%nat eqn:L3; [eexists; split; [reflexivity|split; [constructor; auto|reflexivity]]|].
  destruct (existsb _ (outgoing m v)) eqn:EO; [eexists; split; [reflexivity|split; [constructor; auto|reflexivity]]|].
  assert (OV : outgoing m v = m_vh m v). { unfold outgoing in *. destruct (v <? m_nv m)%nat; [reflexivity|discriminate]. }
  rewrite OV in *.
  assert (OP : forall h, In h (m_vh m v) -> m_opp m h <> None).
  { intros h I E0. apply not_true_iff_false in EO. apply EO, existsb_exists. exists h. rewrite E0. auto. }
  assert (SA' : separate ap (take_faces m)). { intros x y A0 B0. apply SA; apply U; auto. }
  assert (SP' : separate p (take_faces m)). { intros x y A0 B0. apply SP; apply U; auto. }
  destruct (try_spec m v C SP' OP) as (r & ER & HR).
  destruct (choose p ap n_points point target tol max_edge2 near faces_near m (m_vh m v) (m_vh m v) None) as [best|e|]; [|discriminate|discriminate].
  cbn [bind]. destruct HR as [->|(h & o & m' & -> & AD & C' & N' & LV & FC)].
  - exists (m, false). split; [destruct best as [[h d]|]; auto|]. split; [constructor; auto|reflexivity].
  - exists (m', true). split; [destruct best as [[h' d]|]; auto|]. cbn [fst snd]. split.
    + constructor; auto.
      * congruence.
      * intros w W. apply U. apply (c_used m v C OP h o AD m' LV FC); auto.
      * intros x y. rewrite (c_boundary m v C OP h o AD m' LV FC). apply B.
      * intros x y D. rewrite directed_dir in D. apply (c_edges m v C OP h o AD m' LV FC) in D. destruct D as [D|D]; [|auto]. apply E. rewrite directed_dir. auto.
      * intros i I Y. apply (c_honored m v C SA' OP h o AD m' C' LV FC); auto.
      * apply (c_crossings m v C h o AD m' LV FC); auto.
    + destruct (c_gone m v C OP h o AD m' LV FC). split.
      * apply (count_less m m' (fst h)); auto. intros fi L. apply LV in L. apply L.
      * exists (to m h). split; [apply (ad_snapped _ _ _ _ AD)|apply (c_dropped m v C OP h o AD m' LV FC)].
Qed.

Lemma drops_trans : forall al m1 m2 m3, drops ap al m1 m2 -> drops ap al m2 m3 -> drops ap al m1 m3.
Proof using Type. intros al m1 m2 m3 A B. induction A as [m|m m' m'' v b AV AB DR DS IH]; [exact B|]. apply (DStep ap al m m' m3 v b); auto. Qed.

Lemma sweep_spec : forall m0, separate ap (take_faces m0) -> separate p (take_faces m0) -> forall vs m any, thinned m0 m ->
  exists m' any', sweep p ap n_points point target tol max_edge2 near faces_near m vs any = Ok (m', any') /\ thinned m0 m' /\ drops ap is_snapped m m' /\
    (count m' <= count m)%nat /\ (any' = any \/ (any' = true /\ (count m' < count m)%nat)) /\
    (any' = false -> m' = m /\ forall v, In v vs -> snapped v = true -> try_collapse m v = Ok (m, false)).
Proof using NP NF.
  intros m0 SA SP. induction vs as [|v vs IH]; intros m any T; cbn [sweep].
  - exists m, any. split; [auto|]. split; [auto|]. split; [constructor|]. split; [lia|]. split; [auto|]. intros _. split; [auto|intros v []].
  - destruct (snapped v) eqn:SV.
    + destruct (try_collapse_spec m0 m v SA SP T) as ([m1 ok] & ET & T1 & HR). cbn [fst snd] in *.
      rewrite ET. cbn [bind fst snd]. destruct (IH m1 (any || ok) T1) as (m' & any' & EQ & T' & D & L & A & Z). exists m', any'. split; [exact EQ|]. split; [exact T'|]. destruct ok.
      * destruct HR as (CL & b & SB & DR). split; [apply (DStep ap _ m m1 m' v b); auto|]. split; [lia|]. rewrite orb_true_r in A.
        split; [right; split; [destruct A as [->|[-> _]]; auto|lia]|]. intros ->. destruct A as [A|[A _]]; discriminate.
      * subst m1. rewrite orb_false_r in A. split; [exact D|]. split; [exact L|]. split; [exact A|]. intros ->. destruct (Z eq_refl) as [-> Z']. split; auto. intros w [<-|W] SW; auto.
    + destruct (IH m any T) as (m' & any' & EQ & T' & D & L & A & Z). exists m', any'. split; [auto|]. split; [auto|]. split; [auto|]. split; [auto|]. split; [auto|].
      intros F. destruct (Z F) as [E Z']. split; auto. intros w [<-|W] SW; [congruence|auto].
Qed.

Lemma sweeps_spec : forall m0, separate ap (take_faces m0) -> separate p (take_faces m0) -> forall fuel m, thinned m0 m -> (count m < fuel)%nat ->
  exists m', sweeps nv p ap n_points point target tol max_edge2 near faces_near fuel m = Ok (Some m') /\ thinned m0 m' /\ drops ap is_snapped m m' /\ (count m' <= count m)%nat /\
    forall v, (v < nv)%nat -> snapped v = true -> try_collapse m' v = Ok (m', false).
Proof using NP NF.
  intros m0 SA SP. induction fuel as [|fuel IH]; intros m T L; [lia|]. cbn [sweeps].
  destruct (sweep_spec m0 SA SP (seq 0 nv) m false T) as (m1 & any & -> & T1 & D & L1 & A & Z). cbn [bind fst snd]. destruct any.
  - destruct A as [A|[_ A]]; [discriminate|]. destruct (IH m1 T1) as (m' & E & T' & D' & L' & F); [lia|]. exists m'. split; auto. split; auto. split; [apply (drops_trans _ _ m1); auto|]. split; [lia|auto].
  - destruct (Z eq_refl) as [-> Z']. exists m. split; auto. split; auto. split; [auto|]. split; [auto|]. intros v V. apply Z', in_seq. lia.
Qed.

(** * The whole *)
Lemma take_no_clash : forall m, consistent m -> ~ clash (fun i => nth i (take_faces m) (0, 0, 0)%nat) (fun i => (i < length (take_faces m))%nat).
Proof using Type.
  intros m [(_ & NCL & _) _]. destruct (take_faces_spec m) as (is & SO & LV & ->). rewrite map_length.
  assert (ND : NoDup is). { clear LV. induction SO as [|x l S IH A]; constructor; auto. intros I. rewrite Forall_forall in A. apply A in I. lia. }
  assert (N : forall i, (i < length is)%nat -> nth i (map (m_face m) is) (0, 0, 0)%nat = m_face m (nth i is 0%nat)).
  { intros i I. rewrite nth_indep with (d' := m_face m 0%nat) by (rewrite map_length; auto). apply map_nth. }
  intros (g & h & NE & [SG KG] & [SH KH] & T & H). apply NCL. exists (nth (fst g) is 0%nat, snd g), (nth (fst h) is 0%nat, snd h). split.
  - intros E. injection E as E1 E2. apply NE. destruct g as [g1 g2], h as [h1 h2]. cbn [fst snd] in *. rewrite (NoDup_nth is 0%nat) in ND. assert (g1 = h1) by (apply ND; auto). congruence.
  - split; [split; [apply LV, nth_In; auto|auto]|]. split; [split; [apply LV, nth_In; auto|auto]|]. unfold tail, head in *. cbn [fst snd]. rewrite !N in * by auto. auto.
Qed.
Lemma take_distinct : forall m, consistent m -> Forall distinct3 (take_faces m).
Proof using Type. intros m C. apply Forall_forall. intros f I. apply in_take in I. destruct I as (fi & L & <-). apply live_distinct; auto. Qed.

Lemma in_rows_seq : forall n f, (forall v, has_corner f v -> (v < n)%nat) -> in_rows (seq 0 n) f = f.
Proof using Type. intros n [[a b] c] H. cbn [in_rows]. rewrite !seq_nth; [reflexivity|apply H; cbn; auto..]. Qed.
Lemma used_rows : forall (rows : list nat) gs k, (k < length rows)%nat -> NoDup rows -> (forall f j, In f gs -> has_corner f j -> (j < length rows)%nat) ->
  used (map (in_rows rows) gs) (nth k rows 0%nat) -> used gs k.
Proof using Type.
  intros rows gs k K ND B (f & I & C). apply in_map_iff in I. destruct I as (g & <- & G). exists g. split; auto.
  rewrite (NoDup_nth rows 0%nat) in ND. pose proof (B g) as BG. destruct g as [[x y] z]. cbn in C |- *. assert (Q : forall j, (j = x \/ j = y \/ j = z) -> nth k rows 0%nat = nth j rows 0%nat -> k = j).
  { intros j J E. apply ND; [exact K| |exact E]. apply BG; [exact G|exact J]. }
  destruct C as [C|[C|C]]; [left|right; left|right; right]; apply Q; auto.
Qed.

Lemma thin_run : forall fs : list face, Forall distinct3 fs -> ~ clash (fun i => nth i fs (0, 0, 0)%nat) (fun i => (i < length fs)%nat) ->
  separate ap fs -> separate p fs -> (forall v, used fs v -> (v < nv)%nat) -> n_points <> 0%nat -> fs <> [] ->
  exists m m' rows gs, construct fs = Ok m /\ thin nv p ap n_points point target tol max_edge2 near faces_near (S (length fs)) fs = Ok (Some (rows, gs)) /\
    take_faces m = fs /\ take_faces m' = map (in_rows rows) gs /\ thinned m m' /\ drops ap is_snapped m m' /\ (count m' <= count m)%nat /\
    (forall v, (v < nv)%nat -> snapped v = true -> try_collapse m' v = Ok (m', false)) /\ NoDup rows /\ all_used (length rows) gs /\ (forall v, In v rows -> used fs v).
Proof using NP NF.
  intros fs D NC SA SP BV PN FN. pose proof (construct_spec fs D) as C. destruct (construct fs) as [m|e|] eqn:EC; [|destruct C; contradiction|destruct C].
  destruct C as (C & TF & _). destruct (sweeps_spec m) with (fuel := S (length fs)) (m := m) as (m' & ES & TH & DR & CL & FX); try rewrite TF; auto.
  { apply thinned_refl; auto. }
  { unfold count. rewrite TF. lia. }
  destruct (emit_spec nv (take_faces m') []) as (rows & gs & EE & ND & _ & MP & BD & US).
  { constructor. }
  { intros f v F H. apply BV. rewrite <- TF. apply (th_used _ _ TH). exists f. auto. }
  exists m, m', rows, gs. split; [reflexivity|]. split.
  { unfold thin. rewrite (proj2 (Nat.eqb_neq _ _) PN). replace (length fs =? 0)%nat with false by (destruct fs; [contradiction|reflexivity]). cbn [orb].
    rewrite EC. cbn [bind]. rewrite ES. cbn [bind]. rewrite EE. reflexivity. }
  split; [exact TF|]. split; [symmetry; exact MP|]. split; [exact TH|]. split; [exact DR|]. split; [exact CL|]. split; [exact FX|]. split; [exact ND|].
  split.
  - intros k. split.
    + intros K. apply (used_rows rows); auto. rewrite MP. destruct (US (nth k rows 0%nat)) as [[]|U]; [apply nth_In; auto|exact U].
    + intros (f & F & H). apply (BD f); auto.
  - intros v V. destruct (US v V) as [[]|U]. rewrite <- TF. apply (th_used _ _ TH). exact U.
Qed.

Theorem thin_spec : forall fs : list face, Forall distinct3 fs -> ~ clash (fun i => nth i fs (0, 0, 0)%nat) (fun i => (i < length fs)%nat) ->
  separate ap fs -> separate p fs -> (forall v, used fs v -> (v < nv)%nat) ->
  exists rows gs, thin nv p ap n_points point target tol max_edge2 near faces_near (S (length fs)) fs = Ok (Some (rows, gs)) /\
    NoDup rows /\ (forall k, used gs k -> (k < length rows)%nat) /\ (n_points <> 0%nat -> fs <> [] -> all_used (length rows) gs) /\
    let fs' := map (in_rows rows) gs in
    (length fs' <= length fs)%nat /\ Forall distinct3 fs' /\ ~ clash (fun i => nth i fs' (0, 0, 0)%nat) (fun i => (i < length fs')%nat) /\
    (forall v, used fs' v -> used fs v) /\ (forall u v, on_boundary fs' u v <-> on_boundary fs u v) /\
    (forall u v, has_directed fs' u v -> has_directed fs u v \/ dist2 (ap u) (ap v) <= max_edge2) /\
    (forall i, (i < n_points)%nat -> honored ap target tol fs i -> honored ap target tol fs' i) /\ crossings_kept p fs fs'.
Proof using NP NF.
  intros fs D NC SA SP BV. destruct (Nat.eq_dec n_points 0) as [PN|PN]; [|destruct fs as [|f0 fs0] eqn:EF].
  1, 2: exists (seq 0 nv).
  - exists fs. split; [unfold thin; rewrite PN; reflexivity|]. split; [apply seq_NoDup|]. split; [rewrite seq_length; exact BV|]. split; [intros N; contradiction|].
    assert (E : map (in_rows (seq 0 nv)) fs = fs).
    { rewrite <- (map_id fs) at 2. apply map_ext_in. intros f I. apply in_rows_seq. intros v V. apply BV. exists f. auto. }
    cbv zeta. rewrite E. split; [lia|]. split; [exact D|]. split; [exact NC|]. split; [auto|]. split; [intros u v; split; auto|]. split; [auto|]. split; [auto|]. intros f g F G N. auto.
  - exists []. split; [unfold thin; rewrite orb_true_r; reflexivity|]. split; [apply seq_NoDup|]. split; [intros k (f & [] & _)|]. split; [intros _ N; contradiction|].
    cbv zeta. cbn [map]. split; [lia|]. split; [exact D|]. split; [exact NC|]. split; [auto|]. split; [intros u v; split; auto|]. split; [auto|]. split; [auto|]. intros f g [].
  - rewrite <- EF in *. assert (FN : fs <> []) by (rewrite EF; discriminate).
    destruct (thin_run fs D NC SA SP BV PN FN) as (m & m' & rows & gs & EC & ET & TF & TF' & TH & DR & CL & FX & ND & AU & RU).
    exists rows, gs. split; [exact ET|]. split; [exact ND|]. split; [intros k; apply AU|]. split; [auto|]. cbv zeta. rewrite <- TF'.
    destruct TH as [C N U B E H X]. unfold count in CL. rewrite TF in *. split; [exact CL|]. split; [apply take_distinct; auto|]. split; [apply take_no_clash; auto|].
    split; [exact U|]. split; [exact B|]. split; [|auto].
    intros u v HD. destruct (E u v HD) as [HD'|L]; [left; exact HD'|right; exact L].
Qed.
End Thin.
