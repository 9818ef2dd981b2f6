From Coq Require Import List Arith Bool Lia Permutation.
From Verif Require Import Model.Outcome Model.DisjointSets Model.MeshDefects Model.VertexClusterer
  Spec.DisjointSets Spec.VertexClusterer Proofs.MeshDefects Proofs.DisjointSets.
Import ListNotations.

(** ** remove_back_to_back *)

Lemma edge_of_eq : forall u w a b, edge_of (u, w) = edge_of (a, b) <-> (u = a /\ w = b) \/ (u = b /\ w = a).
Proof.
  intros u w a b. unfold edge_of. destruct (Nat.ltb_spec u w), (Nat.ltb_spec a b); split; intros H'.
  all: try (injection H' as E1 E2). all: try lia. all: destruct H' as [[-> ->]|[-> ->]]; try lia; try reflexivity.
  all: f_equal; lia.
Qed.

Lemma edge_faces_count : forall fs a b, edge_faces fs (a, b) = edge_count fs a b.
Proof.
  intros fs a b. unfold edge_faces, edge_count. f_equal.
  change (flat_map sides fs) with (flat_map edges fs). apply filter_ext. intros [u w].
  pose proof (edge_of_eq u w a b) as H. destruct (edge_of (u, w)) as [e1 e2]. destruct (edge_of (a, b)) as [g1 g2].
  cbn [fst snd]. apply eq_true_iff_eq. rewrite orb_true_iff, !andb_true_iff, !Nat.eqb_eq. rewrite <- H.
  split; [intros [-> ->]; auto|]. intros E. injection E as -> ->. auto.
Qed.

Lemma face_eqb_spec : forall f g, face_eqb f g = true <-> f = g.
Proof.
  intros [[a b] c] [[x y] z]. cbn. rewrite !andb_true_iff, !Nat.eqb_eq. split; [intros [[-> ->] ->]; auto|].
  intros E. injection E as -> -> ->. auto.
Qed.

(** The six arrangements of a triple. *)
Definition arrangement (f g : face) : Prop :=
  let '(a, b, c) := f in
  g = (a, b, c) \/ g = (b, c, a) \/ g = (c, a, b) \/ g = (c, b, a) \/ g = (b, a, c) \/ g = (a, c, b).

Lemma arrangement_refl : forall f, arrangement f f.
Proof. intros [[a b] c]. left. auto. Qed.
Lemma arrangement_sym : forall f g, arrangement f g -> arrangement g f.
Proof. intros [[a b] c] g H. cbn in H. destruct H as [->|[->|[->|[->|[->| ->]]]]]; cbn; auto 7. Qed.
Lemma arrangement_trans : forall f g h, arrangement f g -> arrangement g h -> arrangement f h.
Proof.
  intros [[a b] c] g h H H'. cbn in H.
  destruct H as [->|[->|[->|[->|[->| ->]]]]]; cbn in H' |- *; tauto.
Qed.

Lemma sort3_arranged : forall f, arrangement f (sort3 f).
Proof.
  intros [[a b] c]. unfold sort3.
  destruct (Nat.le_gt_cases a b), (Nat.le_gt_cases b c), (Nat.le_gt_cases a c); try lia.
  all: repeat first [rewrite (Nat.min_l a b) by lia|rewrite (Nat.min_r a b) by lia|rewrite (Nat.min_l b c) by lia
    |rewrite (Nat.min_r b c) by lia|rewrite (Nat.min_l a c) by lia|rewrite (Nat.min_r a c) by lia
    |rewrite (Nat.max_l b c) by lia|rewrite (Nat.max_r b c) by lia
    |rewrite (Nat.max_l a c) by lia|rewrite (Nat.max_r a c) by lia
    |rewrite (Nat.max_l a b) by lia|rewrite (Nat.max_r a b) by lia].
  all: match goal with |- context [(?l, ?m, ?h)] =>
    first [replace m with a by lia; cbn; solve [auto 7]|replace m with b by lia; cbn; solve [auto 7]
          |replace m with c by lia; cbn; solve [auto 7]] end.
Qed.

Lemma sort3_eq : forall f g, sort3 f = sort3 g <-> arrangement f g.
Proof.
  intros f g. split.
  - intros E. apply (arrangement_trans f (sort3 f)); [apply sort3_arranged|]. rewrite E. apply arrangement_sym, sort3_arranged.
  - destruct f as [[a b] c], g as [[x y] z]. intros H. unfold sort3.
    assert (Nat.min a (Nat.min b c) = Nat.min x (Nat.min y z) /\ Nat.max a (Nat.max b c) = Nat.max x (Nat.max y z) /\
            a + b + c = x + y + z) as (E1 & E2 & E3).
    { cbn in H. destruct H as [H|[H|[H|[H|[H|H]]]]]; injection H as -> -> ->; repeat split; lia. }
    rewrite E1, E2, E3. auto.
Qed.

Lemma same_winding_spec : forall f g, same_winding f g = true <->
  let '(x, y, z) := g in f = (x, y, z) \/ f = (y, z, x) \/ f = (z, x, y).
Proof. intros f [[x y] z]. unfold same_winding. rewrite !orb_true_iff, !face_eqb_spec. tauto. Qed.

Lemma by_vertices_in : forall fs key i, In i (by_vertices fs key) <-> i < length fs /\ sort3 (face_at fs i) = key.
Proof. intros. unfold by_vertices. rewrite filter_In, in_seq, face_eqb_spec. intuition lia. Qed.

Lemma by_vertices_NoDup : forall fs key, NoDup (by_vertices fs key).
Proof. intros. apply NoDup_filter, seq_NoDup. Qed.

Lemma face_at_nth : forall fs i f, nth_error fs i = Some f <-> i < length fs /\ face_at fs i = f.
Proof.
  intros fs i f. unfold face_at. split.
  - intros H. split; [apply nth_error_Some; congruence|]. apply nth_error_nth. auto.
  - intros [L <-]. apply nth_error_nth'. auto.
Qed.

Lemma edges_arranged : forall f g e, arrangement f g -> In e (edges f) -> exists e', In e' (edges g) /\ edge_of e = edge_of e'.
Proof.
  intros [[a b] c] g e H I. cbn in I.
  assert (forall u w, edge_of (u, w) = edge_of (w, u)) as S by (intros; apply edge_of_eq; auto).
  destruct H as [->|[->|[->|[->|[->| ->]]]]]; cbn; destruct I as [<-|[<-|[<-|[]]]];
    first [eexists; split; [left; reflexivity|solve [auto]]
          |eexists; split; [right; left; reflexivity|solve [auto]]
          |eexists; split; [right; right; left; reflexivity|solve [auto]]].
Qed.

Lemma edge_faces_edge : forall fs e e', edge_of e = edge_of e' -> edge_faces fs e = edge_faces fs e'.
Proof. intros fs e e' H. unfold edge_faces. rewrite H. auto. Qed.

(** The other member of the pair. *)
Definition pair_of (fs : list face) (i j : nat) : Prop :=
  i <> j /\ i < length fs /\ j < length fs /\ arrangement (face_at fs i) (face_at fs j) /\
  (forall k, k < length fs -> arrangement (face_at fs i) (face_at fs k) -> k = i \/ k = j) /\
  same_winding (face_at fs i) (face_at fs j) = false /\
  (forall e, In e (edges (face_at fs i)) -> edge_faces fs e = 2 \/ edge_faces fs e = 4).

Lemma same_winding_sym : forall f g, same_winding f g = same_winding g f.
Proof.
  intros f g. apply eq_true_iff_eq. rewrite !same_winding_spec. destruct f as [[a b] c], g as [[x y] z].
  split; (intros [H|[H|H]]; injection H as -> -> ->; auto).
Qed.

Lemma pair_sym : forall fs i j, pair_of fs i j -> pair_of fs j i.
Proof.
  intros fs i j (NE & Li & Lj & A & U & W & S). split; [auto|]. split; [auto|]. split; [auto|].
  split; [apply arrangement_sym; auto|]. split; [|split].
  - intros k Lk Ak. destruct (U k Lk); [|right|left]; auto. eapply arrangement_trans; eauto.
  - rewrite same_winding_sym. auto.
  - intros e I. destruct (edges_arranged _ _ _ (arrangement_sym _ _ A) I) as (e' & I' & E).
    rewrite (edge_faces_edge _ _ _ E). auto.
Qed.

Lemma two_elements : forall (l : list nat) i j, NoDup l -> i <> j -> In i l -> In j l ->
  (forall k, In k l -> k = i \/ k = j) -> l = [i; j] \/ l = [j; i].
Proof.
  intros l i j ND NE I J U. destruct l as [|a [|b [|c l]]].
  - destruct I.
  - destruct I as [<-|[]], J as [<-|[]]. congruence.
  - inversion ND as [|? ? N1 N2]; subst. assert (a <> b) by (intros ->; apply N1; left; auto).
    destruct (U a (or_introl eq_refl)) as [-> | ->]; destruct (U b (or_intror (or_introl eq_refl))) as [-> | ->]; auto; congruence.
  - exfalso. inversion ND as [|? ? N1 N2]; subst. inversion N2 as [|? ? N3 N4]; subst.
    assert (a <> b /\ a <> c /\ b <> c) as (Q1 & Q2 & Q3).
    { split; [|split]; intros ->; [apply N1|apply N1|apply N3]; cbn; auto. }
    destruct (U a), (U b), (U c); cbn; auto; congruence.
Qed.

Lemma dropped_spec : forall fs i, i < length fs -> (dropped fs i = true <-> exists j, pair_of fs i j).
Proof.
  intros fs i L. unfold dropped. set (key := sort3 (face_at fs i)).
  assert (In i (by_vertices fs key)) as I by (apply by_vertices_in; auto).
  pose proof (by_vertices_NoDup fs key) as ND. split.
  - destruct (by_vertices fs key) as [|a [|b [|c l]]] eqn:E; try discriminate. intros H.
    apply andb_true_iff in H. destruct H as [W S]. apply negb_true_iff in W. rewrite forallb_forall in S.
    assert (pair_of fs a b) as P.
    { assert (In a (by_vertices fs key)) as Ia by (rewrite E; cbn; auto).
      assert (In b (by_vertices fs key)) as Ib by (rewrite E; cbn; auto).
      apply by_vertices_in in Ia. apply by_vertices_in in Ib. destruct Ia as [La Ka], Ib as [Lb Kb].
      split; [intros ->; inversion ND as [|? ? Q]; subst; apply Q; left; auto|]. split; [auto|]. split; [auto|].
      split; [apply sort3_eq; congruence|]. split; [|split; [auto|]].
      - intros k Lk Ak. apply sort3_eq in Ak. assert (In k (by_vertices fs key)) as Ik by (apply by_vertices_in; split; [auto|congruence]).
        rewrite E in Ik. cbn in Ik. intuition auto.
      - intros e Ie. specialize (S e Ie). apply orb_true_iff in S. rewrite !Nat.eqb_eq in S. auto. }
    destruct I as [<-|[<-|[]]]; [exists b; auto|exists a; apply pair_sym; auto].
  - intros (j & P). pose proof P as (NE & Li & Lj & A & U & W & S).
    assert (In j (by_vertices fs key)) as J by (apply by_vertices_in; split; [auto|]; symmetry; apply sort3_eq; auto).
    assert (forall k, In k (by_vertices fs key) -> k = i \/ k = j) as U'.
    { intros k K. apply by_vertices_in in K. destruct K as [Lk Kk]. apply U; auto. apply sort3_eq. auto. }
    destruct (two_elements _ i j ND NE I J U') as [-> | ->]; apply andb_true_iff; split.
    + rewrite W. auto.
    + apply forallb_forall. intros e Ie. apply orb_true_iff. rewrite !Nat.eqb_eq. auto.
    + rewrite same_winding_sym, W. auto.
    + apply forallb_forall. intros e Ie. apply orb_true_iff. rewrite !Nat.eqb_eq.
      destruct (pair_sym _ _ _ P) as (_ & _ & _ & _ & _ & _ & S'). auto.
Qed.

Lemma same_corners_arrangement : forall f g, distinct3 f -> distinct3 g -> (same_corners f g <-> arrangement f g).
Proof.
  intros [[a b] c] [[x y] z] D D'. unfold same_corners, arrangement, distinct3 in *. split.
  - intros H. destruct D' as (Q1 & Q2 & Q3).
    destruct (proj2 (H x)) as [Ex|[Ex|Ex]]; auto; destruct (proj2 (H y)) as [Ey|[Ey|Ey]]; auto;
      destruct (proj2 (H z)) as [Ez|[Ez|Ez]]; auto; subst; try congruence; auto 7.
  - intros [H|[H|[H|[H|[H|H]]]]]; injection H as -> -> ->; intros v; tauto.
Qed.

(** On meshes without degenerate faces the dropped faces are those of fold pairs. *)
Lemma fold_pair_iff : forall fs i j, Forall distinct3 fs -> (fold_pair fs i j <-> pair_of fs i j).
Proof.
  intros fs i j D. rewrite Forall_forall in D.
  assert (forall k, k < length fs -> distinct3 (face_at fs k)) as DD by (intros; apply D, nth_In; auto). split.
  - intros (f & g & Fi & Fj & R & U & S). apply face_at_nth in Fi. apply face_at_nth in Fj. destruct Fi as [Li Ei], Fj as [Lj Ej].
    pose proof (DD i Li) as Di. rewrite Ei in Di.
    assert (arrangement f g) as A.
    { destruct f as [[a b] c]. cbn in R |- *. tauto. }
    assert (same_winding f g = false) as W.
    { apply not_true_iff_false. rewrite same_winding_spec. destruct f as [[a b] c]. cbn in Di, R.
      destruct R as [->|[->| ->]]; intros [Q|[Q|Q]]; inversion Q; lia. }
    split; [|split; [auto|split; [auto|split; [congruence|split; [|split; [congruence|]]]]]].
    + intros ->. assert (f = g) by congruence. subst g. destruct f as [[a b] c]. cbn in R, Di.
      destruct R as [Q|[Q|Q]]; rewrite Ei in Q; inversion Q; lia.
    + intros k Lk Ak. apply (U k (face_at fs k)); [apply face_at_nth; auto|]. rewrite Ei in Ak.
      apply same_corners_arrangement; auto.
    + rewrite Ei. intros [a b] I. rewrite edge_faces_count. apply S. exact I.
  - intros (NE & Li & Lj & A & U & W & S). exists (face_at fs i), (face_at fs j).
    split; [apply face_at_nth; auto|]. split; [apply face_at_nth; auto|]. split; [|split].
    + apply not_true_iff_false in W. rewrite same_winding_spec in W. destruct (face_at fs i) as [[a b] c]. cbn in A |- *.
      destruct A as [A|[A|[A|[A|[A|A]]]]]; auto; rewrite A in W; tauto.
    + intros k h K C. apply face_at_nth in K. destruct K as [Lk <-]. apply U; auto.
      apply same_corners_arrangement in C; auto.
    + intros a b I. rewrite <- edge_faces_count. apply S. exact I.
Qed.

Lemma remove_spec : forall fs, Forall distinct3 fs -> exists keep, remove_back_to_back fs = map (fun i => nth i fs (0, 0, 0)) keep /\
  keep = filter (fun i => negb (dropped fs i)) (seq 0 (length fs)) /\
  forall i, In i keep <-> i < length fs /\ ~ exists j, fold_pair fs i j.
Proof.
  intros fs D. eexists. split; [reflexivity|]. split; [reflexivity|]. intros i.
  rewrite filter_In, in_seq, negb_true_iff. split.
  - intros [[_ L] Q]. split; [exact L|]. intros (j & P). apply fold_pair_iff in P; auto.
    apply not_true_iff_false in Q. apply Q, dropped_spec; [exact L|]. eauto.
  - intros [L Q]. split; [split; [apply Nat.le_0_l|exact L]|]. apply not_true_iff_false. intros Z. apply Q. apply dropped_spec in Z; auto.
    destruct Z as (j & P). exists j. apply fold_pair_iff; auto.
Qed.

(** *** Edge counts *)

Definition side_count (f : face) (a b : nat) : nat := edge_count [f] a b.

Lemma edge_count_app : forall fs gs a b, edge_count (fs ++ gs) a b = edge_count fs a b + edge_count gs a b.
Proof. intros. unfold edge_count. rewrite flat_map_app, filter_app, app_length. auto. Qed.

Lemma edge_count_cons : forall f fs a b, edge_count (f :: fs) a b = side_count f a b + edge_count fs a b.
Proof. intros. apply (edge_count_app [f] fs). Qed.

Lemma side_count_arranged : forall f g a b, arrangement f g -> side_count f a b = side_count g a b.
Proof.
  intros [[x y] z] g a b H.
  assert (forall u w, (Nat.eqb u a && Nat.eqb w b) || (Nat.eqb u b && Nat.eqb w a) =
                      (Nat.eqb w a && Nat.eqb u b) || (Nat.eqb w b && Nat.eqb u a)) as S.
  { intros u w. destruct (Nat.eqb u a), (Nat.eqb w b), (Nat.eqb u b), (Nat.eqb w a); auto. }
  unfold side_count, edge_count.
  destruct H as [->|[->|[->|[->|[->| ->]]]]]; cbn [flat_map sides app filter fst snd];
    rewrite ?(S y x), ?(S z y), ?(S x z), ?(S y z), ?(S z x);
    repeat match goal with |- context [if ?t then _ else _] => destruct t end; reflexivity.
Qed.

Definition total (fs : list face) (l : list nat) (a b : nat) : nat :=
  list_sum (map (fun i => side_count (face_at fs i) a b) l).

Lemma total_cons : forall fs i l a b, total fs (i :: l) a b = side_count (face_at fs i) a b + total fs l a b.
Proof. reflexivity. Qed.

Lemma edge_count_map : forall fs l a b, edge_count (map (face_at fs) l) a b = total fs l a b.
Proof.
  intros fs l a b. unfold total. induction l as [|i l IH]; auto. cbn [map]. rewrite edge_count_cons, IH. auto.
Qed.

Lemma map_face_at : forall fs, map (face_at fs) (seq 0 (length fs)) = fs.
Proof.
  intros fs. unfold face_at. induction fs as [|f fs IH]; auto. cbn [length seq map nth]. f_equal.
  rewrite <- seq_shift, map_map. exact IH.
Qed.

Lemma total_split : forall fs (P : nat -> bool) l a b,
  total fs l a b = total fs (filter P l) a b + total fs (filter (fun i => negb (P i)) l) a b.
Proof.
  intros fs P l a b. induction l as [|i l IH]; auto. cbn [filter]. destruct (P i); cbn [negb]; rewrite !total_cons, IH; lia.
Qed.

Lemma total_perm : forall fs l l' a b, Permutation l l' -> total fs l a b = total fs l' a b.
Proof.
  intros fs l l' a b H. induction H; rewrite ?total_cons; auto; lia.
Qed.

Lemma total_even : forall n fs l a b, length l <= n -> NoDup l ->
  (forall i, In i l -> exists j, In j l /\ pair_of fs i j) -> Nat.even (total fs l a b) = true.
Proof.
  induction n as [|n IH]; intros fs l a b L ND H.
  - destruct l; [reflexivity|cbn in L; lia].
  - destruct l as [|i l]; [reflexivity|].
    destruct (H i (or_introl eq_refl)) as (j & J & P). destruct J as [<-|J]; [destruct P; congruence|].
    apply in_split in J. destruct J as (l1 & l2 & ->). set (l' := l1 ++ l2).
    assert (Permutation (i :: l1 ++ j :: l2) (i :: j :: l')) as PE
      by (apply perm_skip; symmetry; apply Permutation_middle).
    rewrite (total_perm _ _ _ _ _ PE).
    assert (total fs (i :: j :: l') a b = 2 * side_count (face_at fs i) a b + total fs l' a b) as ->.
    { rewrite !total_cons.
      rewrite (side_count_arranged (face_at fs j) (face_at fs i)); [lia|]. apply arrangement_sym. apply P. }
    rewrite Nat.even_add, Nat.even_mul. cbn [Nat.even orb]. rewrite IH; auto.
    + apply Permutation_length in PE. cbn in PE, L. lia.
    + pose proof (Permutation_NoDup PE ND) as ND'. inversion ND' as [|? ? N1 N2]; subst. inversion N2; subst. auto.
    + intros k K. destruct (H k) as (k' & K' & P').
      { right. apply in_app_iff in K. apply in_app_iff. cbn. tauto. }
      exists k'. split; [|auto].
      pose proof (Permutation_NoDup PE ND) as ND'. inversion ND' as [|? ? N1 N2]; subst. inversion N2 as [|? ? N3 N4]; subst.
      apply (Permutation_in _ PE) in K'. destruct K' as [<-|[<-|K']]; auto; exfalso.
      * (* k' = i, so k = j *)
        destruct (pair_sym _ _ _ P') as (_ & _ & _ & A & _). destruct P as (_ & _ & _ & _ & U & _).
        destruct P' as (_ & Lk & _). destruct (U k Lk A); subst; [apply N1; right; auto|auto].
      * destruct (pair_sym _ _ _ P') as (_ & _ & _ & A & _). apply pair_sym in P. destruct P as (_ & _ & _ & _ & U & _).
        destruct P' as (_ & Lk & _). destruct (U k Lk A); subst; [auto|apply N1; right; auto].
Qed.

Lemma side_count_pos : forall f a b, 0 < side_count f a b -> exists e, In e (edges f) /\ edge_of e = edge_of (a, b).
Proof.
  intros f a b H. unfold side_count, edge_count in H. cbn [flat_map] in H. rewrite app_nil_r in H.
  destruct (filter _ (sides f)) as [|[u w] l] eqn:E; [cbn in H; lia|].
  assert (In (u, w) (filter (fun e => (Nat.eqb (fst e) a && Nat.eqb (snd e) b) || (Nat.eqb (fst e) b && Nat.eqb (snd e) a)) (sides f))) as I
    by (rewrite E; left; auto).
  apply filter_In in I. destruct I as [I Q]. cbn [fst snd] in Q. rewrite orb_true_iff, !andb_true_iff, !Nat.eqb_eq in Q.
  exists (u, w). split; [exact I|]. apply edge_of_eq. auto.
Qed.

Lemma edge_parity : forall fs a b,
  edge_count (remove_back_to_back fs) a b = edge_count fs a b \/
  ((edge_count fs a b = 2 \/ edge_count fs a b = 4) /\
   (edge_count (remove_back_to_back fs) a b = 0 \/ edge_count (remove_back_to_back fs) a b = 2)).
Proof.
  intros fs a b. unfold remove_back_to_back. rewrite edge_count_map.
  assert (edge_count fs a b = total fs (filter (dropped fs) (seq 0 (length fs))) a b +
          total fs (filter (fun i => negb (dropped fs i)) (seq 0 (length fs))) a b) as EQ.
  { rewrite <- total_split, <- edge_count_map, map_face_at. auto. }
  set (D := filter (dropped fs) (seq 0 (length fs))). set (K := total fs (filter (fun i => negb (dropped fs i)) _) a b) in *. fold D in EQ.
  assert (forall i, In i D -> exists j, In j D /\ pair_of fs i j) as HD.
  { intros i I. apply filter_In in I. destruct I as [I Q]. apply in_seq in I. apply dropped_spec in Q; [|lia].
    destruct Q as (j & P). exists j. split; [|auto]. apply filter_In. split; [apply in_seq; destruct P as (_ & _ & L & _); lia|].
    apply dropped_spec; [apply P|]. exists i. apply pair_sym. auto. }
  assert (Nat.even (total fs D a b) = true) as EV.
  { eapply total_even; [reflexivity|apply NoDup_filter, seq_NoDup|auto]. }
  destruct (Nat.eq_dec (total fs D a b) 0) as [Z|NZ]; [left; lia|right].
  assert (edge_count fs a b = 2 \/ edge_count fs a b = 4) as C.
  { assert (exists i, In i D /\ 0 < side_count (face_at fs i) a b) as (i & I & P).
    { clear - NZ. induction D as [|i D IH]; [cbn in NZ; lia|]. rewrite total_cons in NZ.
      destruct (Nat.eq_dec (side_count (face_at fs i) a b) 0) as [E|E].
      - destruct IH as (j & J & P); [lia|]. exists j. split; [right; auto|auto].
      - exists i. split; [left; auto|lia]. }
    destruct (HD i I) as (j & _ & Pij). destruct Pij as (_ & _ & _ & _ & _ & _ & S).
    destruct (side_count_pos _ _ _ P) as (e & Ie & Ee). specialize (S e Ie).
    rewrite (edge_faces_edge _ _ _ Ee), edge_faces_count in S. auto. }
  split; [exact C|]. apply Nat.even_spec in EV. destruct EV as (h & EV). lia.
Qed.
