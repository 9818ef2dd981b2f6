From Coq Require Import Reals List Arith Bool Lia Lra Psatz.
From Verif Require Import Model.Clip Spec.Clip Proofs.Clip.
Import ListNotations.
Local Open Scope R_scope.

(** ** Edges *)
Definition clip_edge (th : R) (a b : pt) : option (pt * pt) :=
  if Rlt_dec (px a) th then (if Rlt_dec th (px b) then Some (a, intersect a b th) else Some (a, b))
  else if Rlt_dec (px b) th then (if Rlt_dec th (px a) then Some (intersect a b th, b) else Some (a, b)) else None.
Lemma clip_edge_sym : forall th a b u v, clip_edge th a b = Some (u, v) -> clip_edge th b a = Some (v, u).
Proof.
  intros th a b u v. unfold clip_edge. destruct (Rlt_dec (px a) th), (Rlt_dec (px b) th); intros E.
  - destruct (Rlt_dec th (px b)); [lra|]. destruct (Rlt_dec th (px a)); [lra|]. injection E as <- <-. auto.
  - destruct (Rlt_dec th (px b)); injection E as <- <-; auto. rewrite intersect_comm by lra. auto.
  - destruct (Rlt_dec th (px a)); injection E as <- <-; auto. rewrite intersect_comm by lra. auto.
  - discriminate.
Qed.
Lemma clip_edge_lerp : forall th a b u v, clip_edge th a b = Some (u, v) -> (exists t, 0 <= t <= 1 /\ u = lerp a b t) /\ (exists t, 0 <= t <= 1 /\ v = lerp a b t).
Proof.
  intros th a b u v E. assert (A : exists t, 0 <= t <= 1 /\ a = lerp a b t) by (exists 0; split; [lra|unfold lerp; pt_eq]). assert (B : exists t, 0 <= t <= 1 /\ b = lerp a b t) by (exists 1; split; [lra|unfold lerp; pt_eq]).
  assert (I : (px a < th < px b) \/ (px b < th < px a) -> exists t, 0 <= t <= 1 /\ intersect a b th = lerp a b t). { intros H. destruct (intersect_between a b th H) as (t & T & Q & _). exists t. split; [lra|auto]. }
  unfold clip_edge in E. destruct (Rlt_dec (px a) th), (Rlt_dec (px b) th).
  - destruct (Rlt_dec th (px b)); [lra|]. injection E as <- <-. auto.
  - destruct (Rlt_dec th (px b)); injection E as <- <-; auto.
  - destruct (Rlt_dec th (px a)); injection E as <- <-; auto.
  - discriminate.
Qed.
Lemma ce_in_out : forall th a b, px a < th -> th < px b -> clip_edge th a b = Some (a, intersect a b th).
Proof. intros. unfold clip_edge. destruct (Rlt_dec (px a) th); [|lra]. destruct (Rlt_dec th (px b)); [auto|lra]. Qed.
Lemma ce_out_in : forall th a b, px b < th -> th < px a -> clip_edge th a b = Some (intersect b a th, b).
Proof. intros. unfold clip_edge. destruct (Rlt_dec (px a) th); [lra|]. destruct (Rlt_dec (px b) th); [|lra]. destruct (Rlt_dec th (px a)); [|lra]. rewrite intersect_comm by lra. auto. Qed.
Lemma ce_in : forall th a b, px a <= th -> px b <= th -> px a < th \/ px b < th -> clip_edge th a b = Some (a, b).
Proof. intros th a b A B C. unfold clip_edge. destruct (Rlt_dec (px a) th), (Rlt_dec (px b) th), (Rlt_dec th (px a)), (Rlt_dec th (px b)); auto; lra. Qed.
Lemma ce_none : forall th a b, th <= px a -> th <= px b -> clip_edge th a b = None.
Proof. intros. unfold clip_edge. destruct (Rlt_dec (px a) th), (Rlt_dec (px b) th); auto; lra. Qed.
Lemma rotation_edge : forall t t' a b, rotation t t' -> (has_edge t a b <-> has_edge t' a b).
Proof. intros [[p q] r] t' a b R. destruct R as [-> |[-> | ->]]; cbn [has_edge]; tauto. Qed.
Lemma rotation_sym : forall t t', rotation t t' -> rotation t' t.
Proof. intros [[p q] r] t' R. destruct R as [-> |[-> | ->]]; cbn [rotation]; auto. Qed.
Ltac edge_in := first [left; reflexivity|right; left; reflexivity].
Theorem edges_kept : forall flip tri th a b u v, has_edge tri a b -> clip_edge th a b = Some (u, v) -> exists out, In out (pieces flip tri th) /\ has_edge out u v.
Proof.
  intros flip tri th a b u v H E. destruct (pieces_shape flip tri th) as [p q r -> A B C|p q r -> A B C|v0 v1 v2 R A B C|v0 v1 v2 R A B C|v0 v1 v2 R A B C|v0 v1 v2 R A B C|v0 v1 v2 R A B C].
  - exists (p, q, r). split; [left; auto|]. cbn [has_edge] in *.
    assert (Q : px a <= th /\ px b <= th) by (destruct H as [[-> ->]|[[-> ->]|[-> ->]]]; lra). destruct (Rlt_dec (px a) th) as [L|L]; [|destruct (Rlt_dec (px b) th) as [L'|L']].
    + rewrite ce_in in E by lra. injection E as <- <-. auto.
    + rewrite ce_in in E by lra. injection E as <- <-. auto.
    + rewrite ce_none in E by lra. discriminate.
  - exfalso. cbn [has_edge] in H. rewrite ce_none in E; [discriminate| |]; destruct H as [[-> ->]|[[-> ->]|[-> ->]]]; lra.
  - apply (rotation_edge _ _ _ _ R) in H. cbn [has_edge] in H. eexists. split; [left; reflexivity|]. cbn [has_edge]. destruct H as [[-> ->]|[[-> ->]|[-> ->]]].
    + rewrite ce_in_out in E by lra. injection E as <- <-. auto.
    + rewrite ce_none in E by lra. discriminate.
    + rewrite ce_out_in in E by lra. injection E as <- <-. auto.
  - apply (rotation_edge _ _ _ _ R) in H. cbn [has_edge] in H. eexists. split; [left; reflexivity|]. cbn [has_edge]. destruct H as [[-> ->]|[[-> ->]|[-> ->]]].
    + rewrite ce_in in E by lra. injection E as <- <-. auto.
    + rewrite ce_in_out in E by lra. injection E as <- <-. auto.
    + rewrite ce_none in E by lra. discriminate.
  - apply (rotation_edge _ _ _ _ R) in H. cbn [has_edge] in H. eexists. split; [left; reflexivity|]. cbn [has_edge]. destruct H as [[-> ->]|[[-> ->]|[-> ->]]].
    + rewrite ce_none in E by lra. discriminate.
    + rewrite ce_out_in in E by lra. injection E as <- <-. rewrite intersect_comm by lra. auto.
    + rewrite ce_in in E by lra. injection E as <- <-. auto.
  - apply (rotation_edge _ _ _ _ R) in H. cbn [has_edge] in H. destruct H as [[-> ->]|[[-> ->]|[-> ->]]].
    + rewrite ce_out_in in E by lra. injection E as <- <-. eexists. split; [right; left; reflexivity|]. cbn [has_edge]. auto.
    + rewrite ce_in in E by lra. injection E as <- <-. eexists. split; [left; reflexivity|]. cbn [has_edge]. auto.
    + rewrite ce_in_out in E by lra. injection E as <- <-. eexists. split; [left; reflexivity|]. cbn [has_edge]. auto.
  - apply (rotation_edge _ _ _ _ R) in H. cbn [has_edge] in H. destruct H as [[-> ->]|[[-> ->]|[-> ->]]].
    + rewrite ce_out_in in E by lra. injection E as <- <-. eexists. split; [left; reflexivity|]. cbn [has_edge]. auto.
    + rewrite ce_in in E by lra. injection E as <- <-. eexists. split; [left; reflexivity|]. cbn [has_edge]. auto.
    + rewrite ce_in_out in E by lra. injection E as <- <-. eexists. split; [right; left; reflexivity|]. cbn [has_edge]. auto.
Qed.
Lemma px_intersect : forall a b th, px (intersect a b th) = th.
Proof. intros a b th. unfold intersect, intersect_with. destruct (lex_less _ _ _ _); destruct a as [[? ?] ?], b as [[? ?] ?]; auto. Qed.
Theorem edges_from : forall flip tri th out u v, In out (pieces flip tri th) -> has_edge out u v ->
  (exists out', In out' (pieces flip tri th) /\ has_edge out' v u) \/ (exists a b, has_edge tri a b /\ clip_edge th a b = Some (u, v)) \/ (px u = th /\ px v = th).
Proof.
  intros flip tri th out u v O H. destruct (pieces_shape flip tri th) as [p q r -> A B C|p q r -> A B C|v0 v1 v2 R A B C|v0 v1 v2 R A B C|v0 v1 v2 R A B C|v0 v1 v2 R A B C|v0 v1 v2 R A B C]; cbn [In] in O.
  - destruct O as [<-|[]]. right. assert (Q : px u <= th /\ px v <= th) by (cbn [has_edge] in H; destruct H as [[-> ->]|[[-> ->]|[-> ->]]]; lra).
    destruct (Rlt_dec (px u) th) as [L|L]; [left; exists u, v; split; [auto|apply ce_in; lra]|]. destruct (Rlt_dec (px v) th) as [L'|L']; [left; exists u, v; split; [auto|apply ce_in; lra]|]. right. lra.
  - destruct O.
  - destruct O as [<-|[]]. right. cbn [has_edge] in H. destruct H as [[-> ->]|[[-> ->]|[-> ->]]].
    + left. exists v0, v1. split; [apply (rotation_edge _ _ _ _ R); cbn [has_edge]; auto|]. apply ce_in_out; lra.
    + right. rewrite !px_intersect. auto.
    + left. exists v2, v0. split; [apply (rotation_edge _ _ _ _ R); cbn [has_edge]; auto|]. apply ce_out_in; lra.
  - destruct O as [<-|[]]. right. cbn [has_edge] in H. destruct H as [[-> ->]|[[-> ->]|[-> ->]]].
    + left. exists v0, v1. split; [apply (rotation_edge _ _ _ _ R); cbn [has_edge]; auto|]. apply ce_in; lra.
    + left. exists v1, v2. split; [apply (rotation_edge _ _ _ _ R); cbn [has_edge]; auto|]. apply ce_in_out; lra.
    + right. rewrite px_intersect. auto.
  - destruct O as [<-|[]]. right. cbn [has_edge] in H. destruct H as [[-> ->]|[[-> ->]|[-> ->]]].
    + right. rewrite px_intersect. auto.
    + left. exists v1, v2. split; [apply (rotation_edge _ _ _ _ R); cbn [has_edge]; auto|]. rewrite (intersect_comm v1 v2) by lra. apply ce_out_in; lra.
    + left. exists v2, v0. split; [apply (rotation_edge _ _ _ _ R); cbn [has_edge]; auto|]. apply ce_in; lra.
  - destruct O as [<-|[<-|[]]]; cbn [has_edge] in H; destruct H as [[-> ->]|[[-> ->]|[-> ->]]].
    + right. left. exists v1, v2. split; [apply (rotation_edge _ _ _ _ R); cbn [has_edge]; auto|]. apply ce_in; lra.
    + right. left. exists v2, v0. split; [apply (rotation_edge _ _ _ _ R); cbn [has_edge]; auto|]. apply ce_in_out; lra.
    + left. eexists. split; [right; left; reflexivity|]. cbn [has_edge]. auto.
    + left. eexists. split; [left; reflexivity|]. cbn [has_edge]. auto.
    + right. right. rewrite !px_intersect. auto.
    + right. left. exists v0, v1. split; [apply (rotation_edge _ _ _ _ R); cbn [has_edge]; auto|]. apply ce_out_in; lra.
  - destruct O as [<-|[<-|[]]]; cbn [has_edge] in H; destruct H as [[-> ->]|[[-> ->]|[-> ->]]].
    + right. left. exists v1, v2. split; [apply (rotation_edge _ _ _ _ R); cbn [has_edge]; auto|]. apply ce_in; lra.
    + left. eexists. split; [right; left; reflexivity|]. cbn [has_edge]. auto.
    + right. left. exists v0, v1. split; [apply (rotation_edge _ _ _ _ R); cbn [has_edge]; auto|]. apply ce_out_in; lra.
    + right. left. exists v2, v0. split; [apply (rotation_edge _ _ _ _ R); cbn [has_edge]; auto|]. apply ce_in_out; lra.
    + right. right. rewrite !px_intersect. auto.
    + left. eexists. split; [left; reflexivity|]. cbn [has_edge]. auto.
Qed.

(** ** No proper piece is dropped *)
Lemma scale_zero : forall c p, 0 < c -> scale c p = (0, 0, 0) -> p = (0, 0, 0).
Proof.
  intros c p C E. assert (X : px (scale c p) = 0 /\ py (scale c p) = 0 /\ pz (scale c p) = 0) by (rewrite E; auto). unfold scale in X. cbn [px py pz fst snd] in X. fold (px p) (py p) (pz p) in X.
  destruct X as (X & Y & Z). apply pt_ext; cbn [px py pz fst snd]; (apply Rmult_integral in X, Y, Z; fold (px p) (py p) (pz p); lra).
Qed.
Lemma part_proper : forall tri c out, proper tri -> 0 < c -> part_of tri c out -> proper out.
Proof. intros tri c out P C [_ N] E. apply P. rewrite N in E. apply (scale_zero c); auto. Qed.
Lemma proper_kept : forall t, proper t -> degenerate t = false.
Proof.
  intros [[a b] c] P. unfold degenerate. destruct (pt_eqb a b) eqn:A; [|destruct (pt_eqb b c) eqn:B; [|destruct (pt_eqb c a) eqn:C; auto]]; exfalso; apply P.
  - apply pt_eqb_true in A. subst. unfold normal, cross, minus. pt_eq.
  - apply pt_eqb_true in B. subst. unfold normal, cross, minus. pt_eq.
  - apply pt_eqb_true in C. subst. unfold normal, cross, minus. pt_eq.
Qed.
Lemma parts_in : forall tri l out, parts tri l -> In out l -> exists c, 0 < c /\ part_of tri c out.
Proof.
  intros tri l out (cs & F & P & _) I. revert P. induction F as [|c o cs l F1 F IH]; intros P; [destruct I|]. inversion P; subst. destruct I as [-> |I]; [exists c; auto|apply IH; auto].
Qed.
Lemma clip_proper : forall flip tri th, proper tri -> clip flip tri th = pieces flip tri th.
Proof.
  intros flip tri th P. unfold clip, append. assert (A : forall out, In out (pieces flip tri th) -> degenerate out = false).
  { intros out O. destruct (parts_in _ _ _ (pieces_parts flip tri th) O) as (c & C & Q). apply proper_kept, (part_proper tri c); auto. }
  induction (pieces flip tri th) as [|o l IH]; cbn [filter]; auto. rewrite A by (left; auto). cbn [negb]. f_equal. apply IH. intros. apply A. right. auto.
Qed.
Lemma total_app : forall l l', total (l ++ l') = total l + total l'.
Proof. unfold total. induction l; cbn [app fold_right]; intros; [lra|]. rewrite IHl. lra. Qed.
Lemma total_nonneg : forall l, Forall (fun c => 0 < c) l -> 0 <= total l.
Proof. unfold total. induction 1; cbn [fold_right]; lra. Qed.
Lemma parts_filter : forall tri f l, parts tri l -> parts tri (filter f l).
Proof.
  intros tri f l (cs & F & P & T). revert T. assert (G : exists cs', Forall2 (part_of tri) cs' (filter f l) /\ Forall (fun c => 0 < c) cs' /\ total cs' <= total cs).
  { induction F as [|c o cs l F1 F IH]; [exists []; cbn; repeat split; auto; lra|]. inversion P; subst. destruct IH as (cs' & A & B & C); auto. cbn [filter]. destruct (f o).
    - exists (c :: cs'). split; [constructor; auto|]. split; [constructor; auto|]. unfold total in *. cbn [fold_right]. lra.
    - exists cs'. split; [auto|]. split; [auto|]. unfold total in *. cbn [fold_right]. lra. }
  intros T. destruct G as (cs' & A & B & C). exists cs'. repeat split; auto. lra.
Qed.

(** ** Back and forth between the coordinates *)
Definition turn (m : triangle) : Prop :=
  (forall p, apply (transpose m) (apply m p) = p) /\ (forall p, apply m (apply (transpose m) p) = p) /\ (forall t, normal (transform m t) = apply m (normal t)).
Lemma permutations_turn : Forall turn permutations.
Proof.
  unfold permutations. repeat (apply Forall_cons; [|]); try apply Forall_nil; (split; [intros [[x y] z]|split; [intros [[x y] z]|intros [[[[a b] c] [[d e] f]] [[g h] i]]]]);
    unfold transform, apply, transpose, dot3, normal, cross, minus; pt_eq.
Qed.
Lemma apply_weighted : forall m w tri, apply m (weighted w tri) = weighted w (transform m tri).
Proof. intros [[r0 r1] r2] [[u v] s] [[a b] c]. unfold weighted, transform, apply, dot3. apply pt_ext; cbv beta iota zeta delta [px py pz fst snd]; ring. Qed.
Lemma apply_lerp : forall m a b t, apply m (lerp a b t) = lerp (apply m a) (apply m b) t.
Proof. intros [[r0 r1] r2] a b t. unfold lerp, apply, dot3. apply pt_ext; cbv beta iota zeta delta [px py pz fst snd]; ring. Qed.
Lemma transform_back : forall m t, turn m -> transform (transpose m) (transform m t) = t.
Proof. intros m [[a b] c] (T & _). unfold transform. rewrite !T. auto. Qed.
Lemma apply_0 : forall m, apply m (0, 0, 0) = (0, 0, 0).
Proof. intros [[r0 r1] r2]. unfold apply, dot3. apply pt_ext; cbv beta iota zeta delta [px py pz fst snd]; ring. Qed.
Lemma turn_proper : forall m t, turn m -> proper t -> proper (transform m t).
Proof. intros m t (T & _ & N) P E. rewrite N in E. apply P. rewrite <- (T (normal t)), E. apply apply_0. Qed.
Lemma turn_part : forall m tri c out, turn m -> part_of (transform m tri) c out -> part_of tri c (transform (transpose m) out).
Proof.
  intros m tri c out T [A B]. destruct T as (T1 & T2 & T3). split.
  - intros p I. destruct out as [[a b] d]. assert (Q : exists q, In q (corners (a, b, d)) /\ p = apply (transpose m) q). { cbn [transform corners In] in I. destruct I as [<-|[<-|[<-|[]]]]; eexists; (split; [|reflexivity]); cbn [corners In]; auto. }
    destruct Q as (q & Iq & ->). destruct (A q Iq) as (w & W & ->). exists w. split; auto. rewrite <- apply_weighted, T1. auto.
  - assert (E : out = transform m (transform (transpose m) out)) by (destruct out as [[a b] d]; unfold transform; rewrite !T2; auto). set (o := transform (transpose m) out) in *. rewrite E, !T3 in B.
    rewrite <- (T1 (normal o)), B. set (n := normal tri). rewrite <- (T1 n) at 2. set (k := apply m n). destruct (transpose m) as [[r0 r1] r2]. unfold scale, apply, dot3. apply pt_ext; cbv beta iota zeta delta [px py pz fst snd]; ring.
Qed.

(** ** One face *)
Section Face.
Variable flip : triangle -> pt -> pt -> bool.
Variable m : triangle.
Variable th : R.
Hypothesis T : turn m.
Let level (p : pt) : R := px (apply m p).
Definition face1 (tri : triangle) : list triangle := map (transform (transpose m)) (clip flip (transform m tri) th).
Lemma face_flat : forall l, clip_face flip m th l = flat_map face1 l.
Proof. intros l. unfold clip_face, face1. induction l; cbn [flat_map]; auto. rewrite map_app, IHl. auto. Qed.
Lemma in_face : forall l out, In out (clip_face flip m th l) <-> exists tri, In tri l /\ In out (face1 tri).
Proof. intros l out. rewrite face_flat, in_flat_map. split; auto. Qed.
Lemma face_parts : forall tri, parts tri (face1 tri).
Proof.
  intros tri. unfold face1. destruct (parts_filter _ (fun t => negb (degenerate t)) _ (pieces_parts flip (transform m tri) th)) as (cs & F & P & S). exists cs. split; [|auto].
  fold (append (pieces flip (transform m tri) th)) in F. fold (clip flip (transform m tri) th) in F. clear P S. induction F; cbn [map]; constructor; auto. apply turn_part; auto.
Qed.
Lemma face_level : forall tri out p, In out (face1 tri) -> In p (corners out) -> level p <= th.
Proof.
  intros tri out p O P. unfold face1 in O. apply in_map_iff in O as (o & <- & O). apply filter_In in O as [O _]. destruct T as (T1 & T2 & _).
  destruct o as [[a b] c] eqn:E. assert (Q : exists q, In q (corners o) /\ p = apply (transpose m) q). { subst o. cbn [transform corners In] in *. destruct P as [<-|[<-|[<-|[]]]]; eexists; (split; [|reflexivity]); auto. }
  destruct Q as (q & Iq & ->). unfold level. rewrite T2. subst o. eapply pieces_below; eauto.
Qed.
Lemma face_cover : forall tri p, proper tri -> in_triangle tri p -> level p < th -> exists out, In out (face1 tri) /\ in_triangle out p.
Proof.
  intros tri p P (w & W & ->) L. unfold level in L. unfold face1. rewrite clip_proper by (apply turn_proper; auto).
  destruct (pieces_cover flip (transform m tri) th (apply m (weighted w tri))) as (o & O & (w' & W' & E)); [exists w; split; [auto|apply apply_weighted]|auto|].
  exists (transform (transpose m) o). split; [apply in_map; auto|]. exists w'. split; auto. rewrite <- apply_weighted, <- E. destruct T as (T1 & _). rewrite T1. auto.
Qed.
Lemma transform_edge : forall t a b mm, has_edge t a b -> has_edge (transform mm t) (apply mm a) (apply mm b).
Proof. intros [[p q] r] a b mm H. cbn [has_edge transform] in *. destruct H as [[-> ->]|[[-> ->]|[-> ->]]]; auto. Qed.
Lemma transform_edge_inv : forall t u v mm, has_edge (transform mm t) u v -> exists a b, has_edge t a b /\ u = apply mm a /\ v = apply mm b.
Proof. intros [[p q] r] u v mm H. cbn [has_edge transform] in *. destruct H as [[-> ->]|[[-> ->]|[-> ->]]]; eexists; eexists; (split; [|split; reflexivity]); auto. Qed.
(** An edge is matched, or satisfies something that its parts keep. *)
Lemma face_edges : forall l (Q : pt -> pt -> Prop), (forall a b s t, Q a b -> Q (lerp a b s) (lerp a b t)) -> (forall t, In t l -> proper t) ->
  (forall t a b, In t l -> has_edge t a b -> (exists t', In t' l /\ has_edge t' b a) \/ Q a b) ->
  forall out u v, In out (clip_face flip m th l) -> has_edge out u v ->
  (exists out', In out' (clip_face flip m th l) /\ has_edge out' v u) \/ Q u v \/ (level u = th /\ level v = th).
Proof.
  intros l Q QL PR CL out u v O H. apply in_face in O as (tri & I & O). unfold face1 in O. rewrite clip_proper in O by (apply turn_proper; auto). apply in_map_iff in O as (o & <- & O).
  apply transform_edge_inv in H as (u' & v' & H & -> & ->). pose proof T as (T1 & T2 & _). unfold level. rewrite !T2.
  destruct (edges_from flip _ th o u' v' O H) as [(o' & O' & H')|[(a' & b' & H' & E)|C]]; [| |auto].
  - left. exists (transform (transpose m) o'). split; [|apply transform_edge; auto]. apply in_face. exists tri. split; auto. unfold face1. rewrite clip_proper by (apply turn_proper; auto). apply in_map. auto.
  - apply transform_edge_inv in H' as (a & b & H' & -> & ->). destruct (CL tri a b I H') as [(t' & I' & H'')|QQ].
    + left. apply clip_edge_sym in E. destruct (edges_kept flip (transform m t') th _ _ _ _ (transform_edge _ _ _ m H'') E) as (o' & O' & E').
      exists (transform (transpose m) o'). split; [|apply transform_edge; auto]. apply in_face. exists t'. split; auto. unfold face1. rewrite clip_proper by (apply turn_proper; auto). apply in_map. auto.
    + right. left. destruct (clip_edge_lerp _ _ _ _ _ E) as ((s & _ & ->) & (t & _ & ->)). rewrite <- !apply_lerp, !T1. apply QL. auto.
Qed.
End Face.

(** ** All faces *)
Definition all_faces flip (fs : list (triangle * R)) (l : list triangle) : list triangle := fold_left (fun l face => clip_face flip (fst face) (snd face) l) fs l.
Lemma all_flat : forall flip fs l, all_faces flip fs l = flat_map (fun t => all_faces flip fs [t]) l.
Proof.
  intros flip fs. assert (APP : forall l l', all_faces flip fs (l ++ l') = all_faces flip fs l ++ all_faces flip fs l').
  { induction fs as [|[m th] fs IH]; intros l l'; auto. unfold all_faces in *. cbn [fold_left fst snd]. rewrite !face_flat, flat_map_app. apply IH. }
  assert (NIL : all_faces flip fs [] = []). { clear APP. induction fs as [|[m th] fs IH]; auto. }
  induction l as [|t l IH]; [exact NIL|]. change (t :: l) with ([t] ++ l). rewrite APP, IH. auto.
Qed.
Lemma all_parts : forall flip fs, Forall (fun f => turn (fst f)) fs -> forall tri, parts tri (all_faces flip fs [tri]).
Proof.
  intros flip fs F. induction F as [|[m th] fs T F IH]; intros tri.
  - exists [1]. split; [constructor; [apply part_refl|auto]|]. split; [repeat constructor; lra|cbn; lra].
  - cbn [fst] in T. unfold all_faces. cbn [fold_left fst snd]. fold (all_faces flip fs (clip_face flip m th [tri])). rewrite face_flat. cbn [flat_map]. rewrite app_nil_r, all_flat.
    destruct (face_parts flip m th T tri) as (cs & G & P & S). 
    assert (R : exists cs', Forall2 (part_of tri) cs' (flat_map (fun t => all_faces flip fs [t]) (face1 flip m th tri)) /\ Forall (fun c => 0 < c) cs' /\ total cs' <= total cs).
    { clear S. induction G as [|c o cs l G1 G IHG]; [exists []; cbn; repeat split; auto; lra|]. inversion P; subst. destruct IHG as (cs' & A & B & C); auto. destruct (IH o) as (ds & A' & B' & C').
      exists (map (Rmult c) ds ++ cs'). cbn [flat_map]. split; [|split].
      - apply Forall2_app; auto. clear B' C'. induction A'; cbn [map]; constructor; auto. eapply part_trans; eauto.
      - apply Forall_app. split; auto. clear A' C'. induction B'; cbn [map]; constructor; auto. apply Rmult_lt_0_compat; auto.
      - rewrite total_app. assert (total (map (Rmult c) ds) = c * total ds) as ->. { clear. unfold total. induction ds; cbn [map fold_right]; [lra|]. rewrite IHds. lra. } unfold total in *. cbn [fold_right]. nra. }
    destruct R as (cs' & A & B & C). exists cs'. split; auto. split; auto. lra.
Qed.
Lemma all_convex : forall flip fs (Q : pt -> Prop), Forall (fun f => turn (fst f)) fs -> (forall tri p, (forall q, In q (corners tri) -> Q q) -> in_triangle tri p -> Q p) ->
  forall l, (forall t p, In t l -> In p (corners t) -> Q p) -> forall out p, In out (all_faces flip fs l) -> In p (corners out) -> Q p.
Proof.
  intros flip fs Q F CV l H out p O P. rewrite all_flat in O. apply in_flat_map in O as (t & I & O). destruct (parts_in _ _ _ (all_parts flip fs F t) O) as (c & _ & A & _). apply (CV t); auto. intros q. apply H. auto.
Qed.
Lemma level_convex : forall m th tri p, (forall q, In q (corners tri) -> px (apply m q) <= th) -> in_triangle tri p -> px (apply m p) <= th.
Proof.
  intros m th [[a b] c] p H ([[u v] s] & W & ->). rewrite apply_weighted. cbn [weights] in W. pose proof (H a ltac:(cbn; auto)) as A. pose proof (H b ltac:(cbn; auto)) as B. pose proof (H c ltac:(cbn; auto)) as C. clear H.
  cbn [transform weighted]. cbn [px fst]. fold (px (apply m a)) (px (apply m b)) (px (apply m c)). set (x := px (apply m a)) in *. set (y := px (apply m b)) in *. set (z := px (apply m c)) in *.
  destruct W as (U & V & S & E). assert (u * x <= u * th) by (apply Rmult_le_compat_l; auto). assert (v * y <= v * th) by (apply Rmult_le_compat_l; auto). assert (s * z <= s * th) by (apply Rmult_le_compat_l; auto).
  assert (u * th + v * th + s * th = th) by (replace (u * th + v * th + s * th) with ((u + v + s) * th) by ring; rewrite E; ring). lra.
Qed.
Lemma all_levels : forall flip fs, Forall (fun f => turn (fst f)) fs -> forall l out p f, In out (all_faces flip fs l) -> In p (corners out) -> In f fs -> px (apply (fst f) p) <= snd f.
Proof.
  intros flip fs F. induction F as [|[m th] fs T F IH]; intros l out p f O P I; [destruct I|]. cbn [fst] in T. unfold all_faces in O. cbn [fold_left fst snd] in O. destruct I as [<-|I]; [|eapply IH; eauto].
  cbn [fst snd]. eapply (all_convex flip fs (fun q => px (apply m q) <= th) F); eauto.
  - intros tri q. apply level_convex.
  - intros t q J K. apply in_face in J as (tri & _ & J). eapply face_level; eauto.
Qed.
Lemma face_proper : forall flip m th l, turn m -> (forall t, In t l -> proper t) -> forall out, In out (clip_face flip m th l) -> proper out.
Proof. intros flip m th l T P out O. apply in_face in O as (tri & I & O). destruct (parts_in _ _ _ (face_parts flip m th T tri) O) as (c & C & Q). apply (part_proper tri c); auto. Qed.
Lemma all_cover : forall flip fs, Forall (fun f => turn (fst f)) fs -> forall l tri p, (forall t, In t l -> proper t) -> In tri l -> in_triangle tri p -> (forall f, In f fs -> px (apply (fst f) p) < snd f) ->
  exists out, In out (all_faces flip fs l) /\ in_triangle out p.
Proof.
  intros flip fs F. induction F as [|[m th] fs T F IH]; intros l tri p PR I P L; [exists tri; auto|]. cbn [fst] in T.
  destruct (face_cover flip m th T tri p (PR tri I) P) as (o & O & Q); [apply (L (m, th)); left; auto|]. unfold all_faces. cbn [fold_left fst snd].
  apply (IH (clip_face flip m th l) o p); auto; [apply face_proper; auto|apply in_face; eauto|]. intros f J. apply L. right. auto.
Qed.
Lemma all_edges : forall flip fs, Forall (fun f => turn (fst f)) fs -> forall l (Q : pt -> pt -> Prop), (forall a b s t, Q a b -> Q (lerp a b s) (lerp a b t)) -> (forall t, In t l -> proper t) ->
  (forall t a b, In t l -> has_edge t a b -> (exists t', In t' l /\ has_edge t' b a) \/ Q a b) ->
  forall out u v, In out (all_faces flip fs l) -> has_edge out u v ->
  (exists out', In out' (all_faces flip fs l) /\ has_edge out' v u) \/ Q u v \/ exists f, In f fs /\ px (apply (fst f) u) = snd f /\ px (apply (fst f) v) = snd f.
Proof.
  intros flip fs F. induction F as [|[m th] fs T F IH]; intros l Q QL PR CL out u v O H.
  - destruct (CL out u v O H) as [X|X]; auto.
  - cbn [fst] in T. unfold all_faces in *. cbn [fold_left fst snd] in *.
    destruct (IH (clip_face flip m th l) (fun a b => Q a b \/ (px (apply m a) = th /\ px (apply m b) = th))) with (out := out) (u := u) (v := v) as [X|[[X|X]|X]]; auto.
    + intros a b s t [X|[X Y]]; [left; auto|right]. rewrite !apply_lerp. unfold lerp. cbn [px fst]. fold (px (apply m a)) (px (apply m b)). rewrite X, Y. split; ring.
    + apply face_proper; auto.
    + intros t a b I E. destruct (face_edges flip m th T l Q QL PR CL t a b I E) as [X|[X|X]]; auto.
    + right. right. exists (m, th). split; [left; auto|auto].
    + right. right. destruct X as (f & I & X). exists f. split; [right; auto|auto].
Qed.

(** ** The box *)
Definition box_faces (lo hi : pt) : list (triangle * R) := combine permutations (thresholds lo hi).
Lemma box_turn : forall lo hi, Forall (fun f => turn (fst f)) (box_faces lo hi).
Proof. intros lo hi. apply Forall_forall. intros [m th] I. apply in_combine_l in I. exact (proj1 (Forall_forall _ _) permutations_turn m I). Qed.
Lemma box_levels : forall lo hi (rel : R -> R -> Prop) p, (forall f, In f (box_faces lo hi) -> rel (px (apply (fst f) p)) (snd f)) <->
  (rel (px p) (px hi) /\ rel (- px p) (- px lo) /\ rel (py p) (py hi) /\ rel (- py p) (- py lo) /\ rel (pz p) (pz hi) /\ rel (- pz p) (- pz lo)).
Proof.
  intros lo hi rel p. assert (E : forall x y z, px (apply ((x, y, z), (0, 0, 0), (0, 0, 0)) p) = x * px p + y * py p + z * pz p) by (intros; unfold apply, dot3; cbn [px py pz fst snd]; auto).
  assert (Q : forall r0 r1 r2 x, dot3 r0 p = x -> px (apply (r0, r1, r2) p) = x) by (intros; auto).
  unfold box_faces, permutations, thresholds. cbn [combine].
  assert (L1 : dot3 (1, 0, 0) p = px p) by (unfold dot3; cbn [px py pz fst snd]; ring). assert (L2 : dot3 (-1, 0, 0) p = - px p) by (unfold dot3; cbn [px py pz fst snd]; ring).
  assert (L3 : dot3 (0, 1, 0) p = py p) by (unfold dot3; cbn [px py pz fst snd]; ring). assert (L4 : dot3 (0, -1, 0) p = - py p) by (unfold dot3; cbn [px py pz fst snd]; ring).
  assert (L5 : dot3 (0, 0, 1) p = pz p) by (unfold dot3; cbn [px py pz fst snd]; ring). assert (L6 : dot3 (0, 0, -1) p = - pz p) by (unfold dot3; cbn [px py pz fst snd]; ring).
  split.
  - intros H. rewrite <- L1 at 1. rewrite <- L2 at 1. rewrite <- L3 at 1. rewrite <- L4 at 1. rewrite <- L5 at 1. rewrite <- L6 at 1.
    repeat split; match goal with |- rel (dot3 ?r p) ?t => let f := fresh in first
      [exact (H _ (or_introl eq_refl))|exact (H _ (or_intror (or_introl eq_refl)))|exact (H _ (or_intror (or_intror (or_introl eq_refl))))|exact (H _ (or_intror (or_intror (or_intror (or_introl eq_refl)))))
      |exact (H _ (or_intror (or_intror (or_intror (or_intror (or_introl eq_refl))))))|exact (H _ (or_intror (or_intror (or_intror (or_intror (or_intror (or_introl eq_refl)))))))] end.
  - intros (A & B & C & D & F & G) f I. cbn [In] in I. destruct I as [<-|[<-|[<-|[<-|[<-|[<-|[]]]]]]]; cbn [fst snd]; unfold apply; cbn [px fst]; rewrite ?L1, ?L2, ?L3, ?L4, ?L5, ?L6; auto.
Qed.
Theorem stays_in_box : forall flip lo hi l out p, In out (clip_box flip lo hi l) -> In p (corners out) -> in_box lo hi p.
Proof.
  intros flip lo hi l out p O P. assert (H : forall f, In f (box_faces lo hi) -> px (apply (fst f) p) <= snd f) by (intros f I; eapply (all_levels flip _ (box_turn lo hi)); eauto).
  apply (box_levels lo hi Rle) in H. unfold in_box. lra.
Qed.
Theorem each_triangle : forall flip lo hi l, clip_box flip lo hi l = flat_map (fun t => clip_box flip lo hi [t]) l.
Proof. intros. apply all_flat. Qed.
Theorem parts_of_triangle : forall flip lo hi tri, exists cs, Forall2 (part_of tri) cs (clip_box flip lo hi [tri]) /\ Forall (fun c => 0 < c) cs /\ total cs <= 1.
Proof. intros. apply (all_parts flip _ (box_turn lo hi)). Qed.
Theorem nothing_lost : forall flip lo hi l tri p, (forall t, In t l -> proper t) -> In tri l -> in_triangle tri p -> inside_box lo hi p -> exists out, In out (clip_box flip lo hi l) /\ in_triangle out p.
Proof.
  intros flip lo hi l tri p PR I P B. apply (all_cover flip _ (box_turn lo hi) l tri); auto. apply (box_levels lo hi Rlt). unfold inside_box in B. lra.
Qed.
Theorem cut_edges : forall flip lo hi l, (forall t, In t l -> proper t) -> closed l -> forall out a b, In out (clip_box flip lo hi l) -> has_edge out a b ->
  (exists out', In out' (clip_box flip lo hi l) /\ has_edge out' b a) \/ on_face lo hi a b.
Proof.
  intros flip lo hi l PR CL out a b O H. destruct (all_edges flip _ (box_turn lo hi) l (fun _ _ => False) ltac:(auto) PR) with (out := out) (u := a) (v := b) as [X|[[]|(f & I & A & B)]]; auto.
  - intros t u v J E. left. apply (CL t); auto.
  - right. unfold on_face. unfold box_faces, permutations, thresholds in I. cbn [combine In] in I. destruct I as [<-|[<-|[<-|[<-|[<-|[<-|[]]]]]]]; cbn [fst snd] in A, B; unfold apply, dot3 in A, B; cbn [px py pz fst snd] in A, B;
      fold (px a) (py a) (pz a) in A; fold (px b) (py b) (pz b) in B; lra.
Qed.
