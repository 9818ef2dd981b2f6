From Coq Require Import Reals List Arith Bool Lia Lra.
From Verif Require Import Model.Clip Spec.Clip Proofs.Clip Proofs.ClipBox.
Import ListNotations.
Local Open Scope R_scope.

Lemma existsb_pt : forall v keys, existsb (pt_eqb v) keys = true <-> In v keys.
Proof. intros v keys. rewrite existsb_exists. split; [intros (x & I & E); apply pt_eqb_true in E; subst; auto|intros I; exists v; split; auto; apply pt_eqb_true; auto]. Qed.
Lemma add_vertex_inv : forall keys v, NoDup keys -> NoDup (add_vertex keys v) /\ forall x, In x (add_vertex keys v) <-> In x keys \/ x = v.
Proof.
  intros keys v N. unfold add_vertex. destruct (existsb (pt_eqb v) keys) eqn:E.
  - apply existsb_pt in E. split; auto. intros x. split; auto. intros [X| ->]; auto.
  - assert (NI : ~ In v keys) by (intros I; apply existsb_pt in I; congruence). split.
    + clear E. induction N as [|y l Y N IH]; cbn [app]; [constructor; [intros []|constructor]|]. constructor; [|apply IH; intros I; apply NI; right; auto].
      rewrite in_app_iff. intros [X|[<-|[]]]; [auto|apply NI; left; auto].
    + intros x. rewrite in_app_iff. cbn [In]. split; [intros [X|[X|[]]]; auto|intros [X|X]; auto].
Qed.
Lemma keys_inv : forall vs keys, NoDup keys -> NoDup (fold_left add_vertex vs keys) /\ forall x, In x (fold_left add_vertex vs keys) <-> In x keys \/ In x vs.
Proof.
  induction vs as [|v vs IH]; intros keys N; cbn [fold_left In]; [split; auto; intros; tauto|]. destruct (add_vertex_inv keys v N) as [N' E]. destruct (IH _ N') as [A B]. split; auto.
  intros x. rewrite B, E. split; intros [X|X]; auto; [destruct X; auto|destruct X; auto].
Qed.
Lemma number_in : forall keys v, In v keys -> exists i, number keys v = Some i /\ nth_error keys i = Some v.
Proof.
  induction keys as [|k keys IH]; intros v I; [destruct I|]. cbn [number]. destruct (pt_eqb v k) eqn:E.
  - apply pt_eqb_true in E. subst. exists 0%nat. auto.
  - destruct I as [-> |I]; [rewrite (proj2 (pt_eqb_true v v)) in E by auto; discriminate|]. destruct (IH v I) as (i & -> & H). exists (S i). auto.
Qed.
Theorem indexed : forall l, let m := index_mesh l in NoDup (vertices m) /\ (forall v, In v (vertices m) <-> exists tri, In tri l /\ In v (corners tri)) /\
  Forall2 (fun f tri => exists i j k a b c, f = (Some i, Some j, Some k) /\ tri = (a, b, c) /\ nth_error (vertices m) i = Some a /\ nth_error (vertices m) j = Some b /\ nth_error (vertices m) k = Some c) (faces m) l.
Proof.
  intros l m. destruct (keys_inv (flat_map corners l) [] ltac:(constructor)) as [N K]. fold (vertex_keys l) in N, K. split; [exact N|].
  assert (K' : forall v, In v (vertices m) <-> exists tri, In tri l /\ In v (corners tri)). { intros v. unfold m, index_mesh. cbn [vertices]. rewrite K, in_flat_map. split; [intros [[]|X]; auto|auto]. }
  split; [exact K'|]. assert (H : forall tri, In tri l -> forall v, In v (corners tri) -> In v (vertices m)) by (intros tri I v V; apply K'; eauto).
  unfold m, index_mesh in *. cbn [vertices faces] in *. clear K K' N. set (keys := vertex_keys l) in *. clearbody keys. clear m. induction l as [|[[a b] c] l IH]; cbn [map]; constructor.
  - pose proof (H (a, b, c) ltac:(left; auto)) as Q. cbn [corners] in Q. destruct (number_in keys a) as (i & -> & A); [apply Q; cbn; auto|]. destruct (number_in keys b) as (j & -> & B); [apply Q; cbn; auto|]. destruct (number_in keys c) as (k & -> & C); [apply Q; cbn; auto|].
    exists i, j, k, a, b, c. auto.
  - apply IH. intros tri I. apply H. right. auto.
Qed.
(** A triangle in a face of the box. *)
Definition flat : triangle := ((1, 0, 0), (1, 1, 0), (1, 0, 1)).
Definition unit_lo : pt := (0, 0, 0).
Definition unit_hi : pt := (1, 1, 1).
Theorem flat_lost : forall flip, proper flat /\ (forall p, In p (corners flat) -> in_box unit_lo unit_hi p) /\ clip_box flip unit_lo unit_hi [flat] = [].
Proof.
  intros flip. split; [|split].
  - intros E. assert (px (normal flat) = 0) by (rewrite E; auto). unfold normal, flat, cross, minus in H. cbn [px py pz fst snd] in H. lra.
  - intros p [<-|[<-|[<-|[]]]]; unfold in_box, unit_lo, unit_hi; cbn [px py pz fst snd]; lra.
  - unfold clip_box, permutations, thresholds. cbn [combine fold_left fst snd]. unfold clip_face at 6. cbn [flat_map].
    assert (P : clip flip (transform ((1, 0, 0), (0, 1, 0), (0, 0, 1)) flat) (px unit_hi) = []); [|rewrite P; reflexivity].
    set (th := px unit_hi). unfold clip, pieces, count, rotate_to. unfold transform, flat.
    assert (D : forall y z, interior th (apply ((1, 0, 0), (0, 1, 0), (0, 0, 1)) (1, y, z)) = false /\ boundary th (apply ((1, 0, 0), (0, 1, 0), (0, 0, 1)) (1, y, z)) = true /\ exterior th (apply ((1, 0, 0), (0, 1, 0), (0, 0, 1)) (1, y, z)) = false).
    { intros y z. assert (E : px (apply ((1, 0, 0), (0, 1, 0), (0, 0, 1)) (1, y, z)) = th) by (unfold apply, dot3, th, unit_hi; cbn [px py pz fst snd]; lra).
      destruct (side th (apply ((1, 0, 0), (0, 1, 0), (0, 0, 1)) (1, y, z))) as [(A & _)|[(A & R)|(A & _)]]; [lra|auto|lra]. }
    destruct (D 0 0) as (-> & -> & ->). destruct (D 1 0) as (-> & -> & ->). destruct (D 0 1) as (-> & -> & ->). reflexivity.
Qed.
Theorem entire_lost : forall flip vs lo hi, is_empty (Mesh [] [] true) = false /\ is_empty (clip_mesh flip vs [] true lo hi) = true.
Proof. intros. split; auto. Qed.
