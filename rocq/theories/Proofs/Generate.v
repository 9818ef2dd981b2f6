From Coq Require Import Reals ZArith List Arith Bool Lia Lra.
From Verif Require Import Proofs.Quadric Proofs.Smoother Proofs.Thinner.
From Verif Require Import Model.Outcome Model.Clip Model.PointTriangle Model.Predicates Model.MeshDefects Model.AbstractMesh Model.Smoother Model.Thinner Model.Generate
  Spec.PointTriangle Spec.Predicates Spec.VertexClusterer Spec.AbstractMesh Spec.Smoother Spec.Thinner Spec.Generate.
Import ListNotations.

Lemma bind_some : forall {A B} (x : outcome (option A)) (f : A -> outcome (option B)) r, bind_opt x f = Ok (Some r) -> exists a, x = Ok (Some a) /\ f a = Ok (Some r).
Proof. intros A B [[a|]|e|] f r H; cbn in H; try discriminate. exists a. auto. Qed.

(** * The snapping loop *)
Section Loop.
Variable smooth : surface -> outcome (option surface).
Variable snap : surface -> outcome (option (surface * nat)).
Variable hash : surface -> Z.
Notation turn := (turn smooth snap).

Lemma turns_spec : forall n s hs r, turns smooth snap hash (S n) s hs = Ok (Some r) -> NoDup hs -> exists l k, path turn s (l ++ [(r, k)]) /\ (length l <= n)%nat /\
  Forall (fun x => snd x <> 0%nat) l /\ NoDup (map (fun x => hash (fst x)) l) /\ (forall x, In x l -> ~ In (hash (fst x)) hs) /\
  (k = 0%nat \/ In (hash r) (hs ++ map (fun x => hash (fst x)) l) \/ length l = n).
Proof.
  induction n as [|n IH]; intros s hs r E ND; cbn [turns] in E; apply bind_some in E; destruct E as ([s' k] & T & E); cbn [fst snd] in E.
  - assert (R : s' = r). { destruct (k =? 0)%nat; [congruence|]. destruct (existsb _ hs); congruence. } subst s'.
    exists [], k. cbn [app length map]. split; [apply PCons with (1 := T); constructor|]. split; [lia|]. split; [constructor|]. split; [constructor|]. split; [intros x []|]. right; right; reflexivity.
  - destruct (Nat.eqb_spec k 0) as [Z|Z].
    + injection E as <-. exists [], k. cbn [app length map]. split; [apply PCons with (1 := T); constructor|]. split; [lia|]. split; [constructor|]. split; [constructor|]. split; [intros x []|]. left; exact Z.
    + destruct (existsb (Z.eqb (hash s')) hs) eqn:X.
      * injection E as <-. exists [], k. cbn [app length map]. split; [apply PCons with (1 := T); constructor|]. split; [lia|]. split; [constructor|]. split; [constructor|]. split; [intros x []|].
        right; left. apply existsb_exists in X. destruct X as (h & I & Eh). apply Z.eqb_eq in Eh. rewrite app_nil_r, Eh. exact I.
      * assert (NI : ~ In (hash s') hs). { intros I. assert (Y : existsb (Z.eqb (hash s')) hs = true) by (apply existsb_exists; exists (hash s'); split; [exact I|apply Z.eqb_refl]). congruence. }
        apply IH in E; [|constructor; assumption]. destruct E as (l & k' & P & L & F & N & D & R).
        exists ((s', k) :: l), k'. cbn [app length map fst]. split; [apply PCons with (1 := T); exact P|]. split; [lia|]. split; [constructor; [exact Z|exact F]|].
        split; [constructor; [|exact N]|].
        { intros I. apply in_map_iff in I. destruct I as (x & Ex & Ix). apply (D x Ix). left. symmetry. exact Ex. }
        split; [intros x [<-|I]; [exact NI|intros J; apply (D x I); right; exact J]|].
        destruct R as [R|[R|R]]; [left; exact R| |right; right; lia].
        right; left. apply in_app_or in R. apply in_or_app. destruct R as [[R|R]|R]; [right; left; exact R|left; exact R|right; right; exact R].
Qed.

Lemma path_app : forall l s x l', path turn s (l ++ x :: l') -> path turn (fst x) l'.
Proof.
  induction l as [|y l IH]; intros s x l' P; inversion P; subst; [cbn [fst]; assumption|]. eapply IH. eassumption.
Qed.
(** If the last mesh was there before, the meshes go round for ever. *)
Lemma cycle_closed : forall s l1 k1 l2 r k, path turn s (l1 ++ (r, k1) :: l2 ++ [(r, k)]) -> forall x y, In x (l1 ++ (r, k1) :: l2 ++ [(r, k)]) -> turn (fst x) = Ok (Some y) ->
  In y (l1 ++ (r, k1) :: l2 ++ [(r, k)]).
Proof.
  intros s l1 k1 l2 r k P x y I T. set (L := l1 ++ (r, k1) :: l2 ++ [(r, k)]) in *.
  assert (G : forall x, In x L -> (exists z, In z L /\ turn (fst x) = Ok (Some z))).
  { assert (Q : forall l s, path turn s l -> forall a b l', l = a ++ b :: l' -> match l' with [] => True | z :: _ => turn (fst b) = Ok (Some z) end).
    { clear. intros l s P a b l' ->. apply path_app in P. destruct l' as [|[z kz] l']; [exact I|]. inversion P; subst. assumption. }
    assert (RN : exists z, In z L /\ turn r = Ok (Some z)).
    { pose proof (Q L s P l1 (r, k1) (l2 ++ [(r, k)]) eq_refl) as H. destruct (l2 ++ [(r, k)]) as [|z l'] eqn:E; [destruct l2; discriminate|]. cbn [fst] in H. exists z. split; [|exact H].
      unfold L. apply in_or_app. right; right. try rewrite E. left; reflexivity. }
    intros x' I'. apply in_split in I'. destruct I' as (a & b & E). destruct b as [|z b].
    - assert (X : x' = (r, k)). { unfold L in E. replace (l1 ++ (r, k1) :: l2 ++ [(r, k)]) with ((l1 ++ (r, k1) :: l2) ++ [(r, k)]) in E by (rewrite <- app_assoc; reflexivity). apply app_inj_tail in E. destruct E as [_ E]. symmetry. exact E. }
      subst x'. exact RN.
    - exists z. split; [rewrite E; apply in_or_app; right; right; left; reflexivity|]. exact (Q L s P a x' (z :: b) E). }
  destruct (G x I) as (z & Iz & Tz). rewrite T in Tz. injection Tz as ->. exact Iz.
Qed.
Lemma cycle_path : forall s l1 k1 l2 r k, path turn s (l1 ++ (r, k1) :: l2 ++ [(r, k)]) -> forall l' x, In x (l1 ++ (r, k1) :: l2 ++ [(r, k)]) -> path turn (fst x) l' ->
  incl l' (l1 ++ (r, k1) :: l2 ++ [(r, k)]).
Proof.
  intros s l1 k1 l2 r k P. induction l' as [|y l' IH]; intros x I Q; [intros z []|]. inversion Q; subst.
  assert (Y : In (s', k0) (l1 ++ (r, k1) :: l2 ++ [(r, k)])) by (apply (cycle_closed s l1 k1 l2 r k P x); assumption).
  intros z [<-|Z]; [exact Y|]. exact (IH (s', k0) Y H3 z Z).
Qed.
Theorem turns_cycle : (forall a b, hash a = hash b -> a = b) -> forall s l r k, path turn s (l ++ [(r, k)]) -> Forall (fun x => snd x <> 0%nat) l -> k <> 0%nat ->
  In (hash r) (map (fun x => hash (fst x)) l) -> forall l', path turn r l' -> incl l' (l ++ [(r, k)]) /\ Forall (fun x => snd x <> 0%nat) l'.
Proof.
  intros INJ s l r k P F K I l' Q. apply in_map_iff in I. destruct I as ([r' k1] & Er & I). apply INJ in Er. cbn [fst] in Er. subst r'.
  apply in_split in I. destruct I as (l1 & l2 & ->). assert (EQ : (l1 ++ (r, k1) :: l2) ++ [(r, k)] = l1 ++ (r, k1) :: l2 ++ [(r, k)]) by (rewrite <- app_assoc; reflexivity). rewrite EQ in *.
  assert (J : incl l' (l1 ++ (r, k1) :: l2 ++ [(r, k)])).
  { apply (cycle_path s l1 k1 l2 r k P l' (r, k)); [|exact Q]. rewrite <- EQ. apply in_or_app. right; left; reflexivity. }
  split; [exact J|]. apply Forall_forall. intros x X. apply J in X. rewrite <- EQ in X. apply in_app_or in X. destruct X as [X|[<-|[]]]; [|exact K]. rewrite Forall_forall in F. exact (F x X).
Qed.
End Loop.

(** * Whole meshes *)
Lemma apply_injective : forall m : triangle, (let '(a, b, c) := m in Predicates.det3 a b c <> 0%R) -> forall x y, apply m x = apply m y -> x = y.
Proof.
  intros [[a b] c] D x y E. apply (scale_sub_zero (Predicates.det3 a b c) x y D). rewrite cramer. cbn [apply] in E. injection E as E1 E2 E3.
  rewrite !dot_sub, (dot_sym x a), (dot_sym y a), (dot_sym x b), (dot_sym y b), (dot_sym x c), (dot_sym y c), E1, E2, E3, !Rminus_diag_eq by reflexivity.
  unfold mix3, Quadric.zero, add3, scale3, px, py, pz. cbn [fst snd]. f_equal; [f_equal|]; ring.
Qed.
Section Stage.
Variable aniso : triangle.
Hypothesis INJ : forall x y, apply aniso x = apply aniso y -> x = y.
Variable n_points : nat.
Variables point target : nat -> pt.
Variable tol : nat -> R.
Variable max_edge2 : R.
Variable near : pt -> pt -> list nat.
Variable faces_near : (nat -> pt) -> mesh -> pt -> pt -> list nat.
Variable take : list item -> option (item * list item).
Hypothesis NP : finds_points n_points target tol near.
Hypothesis NF : forall p, finds_faces p (faces_near p).
Hypothesis TL : takes_largest take.
Notation smooth := (smooth_stage aniso n_points target tol max_edge2 near faces_near take enough).
Notation thin := (thin_stage aniso n_points point target tol max_edge2 near faces_near).

Lemma moved_separate : forall s, separate (vertex s) (s_f s) -> separate (moved_vertex aniso s) (s_f s).
Proof using INJ. intros s H u v U V E. apply (H u v U V). apply INJ. exact E. Qed.

Notation keeps := (keeps aniso n_points target tol).
Lemma keeps_trans : forall a b c, keeps a b -> keeps b c -> keeps a c.
Proof using Type.
  intros a b c (A1 & A2 & A3 & A4 & A5 & A6) (B1 & B2 & B3 & B4 & B5 & B6). split; [exact B1|]. split; [lia|]. split; [intros x H; apply A3, B3, H|].
  split; [intros x y; rewrite B4; apply A4|]. split; [intros i H X; apply B5; [exact H|]; apply A5; assumption|intros X; apply B6, A6, X].
Qed.
Lemma smooth_keeps : forall s, good s -> exists s', smooth s = Ok (Some s') /\ keeps s s'.
Proof using INJ NP NF TL.
  intros s (D & NC & S & B).
  destruct (smooth_spec (vertex s) (moved_vertex aniso s) n_points target tol near (faces_near (vertex s)) NP (NF (vertex s)) max_edge2 take TL (s_f s) D NC S (moved_separate s S))
    as (fs' & n & E & L & D' & NC' & U & BD & _ & _ & H & X).
  exists (Surface (s_v s) fs' false). unfold smooth_stage. rewrite E. cbn [bind option_map fst]. split; [reflexivity|]. unfold keeps, good. cbn [s_f s_v].
  change (vertex (Surface (s_v s) fs' false)) with (vertex s).
  split; [split; [exact D'|]; split; [exact NC'|]; split; [intros u v Hu Hv Q; apply U in Hu, Hv; exact (S u v Hu Hv Q)|intros v Hv; apply B, U, Hv]|].
  split; [lia|]. split; [intros x (v & Hv & Q); exists v; split; [apply U, Hv|exact Q]|].
  split; [intros x y; split; intros (u & v & Q & R1 & R2); exists u, v; (split; [apply BD, Q|split; [exact R1|exact R2]])|]. split; [exact H|].
  intros C f g If Ig. cbn [s_f] in If, Ig. change (vertex (Surface (s_v s) fs' false)) with (vertex s).
  destruct (In_nth _ _ (0, 0, 0)%nat If) as (i & Li & Ei). destruct (In_nth _ _ (0, 0, 0)%nat Ig) as (j & Lj & Ej).
  destruct (Nat.eq_dec i j) as [Q|Q].
  { left. assert (FG : g = f) by congruence. rewrite FG. clear. destruct f as [[a b] c]. exists a. cbn. auto. }
  unfold no_new_crossing in X. cbv zeta beta in X. unfold tri, face in X, Ei, Ej.
  destruct (X i j Li Lj Q) as [W|[W|[W1 W2]]].
  - right. rewrite Ei, Ej in W. exact W.
  - rewrite Ei, Ej in W. left. destruct W as (u & v & S1 & S2). exists u. split; [destruct f as [[a b] c]|destruct g as [[a b] c]]; cbn in S1, S2 |- *.
    + destruct S1 as [S1|[S1|[S1|[]]]]; injection S1; intros; subst; auto.
    + destruct S2 as [S2|[S2|[S2|[]]]]; injection S2; intros; subst; auto.
  - rewrite Ei in W1. rewrite Ej in W2. apply C; [rewrite W1|rewrite W2]; apply nth_In; [apply (Nat.lt_le_trans _ _ _ Li)|apply (Nat.lt_le_trans _ _ _ Lj)]; apply Nat.eq_le_incl; exact L.
Qed.

Lemma rows_corner : forall rows f k, has_corner f k -> has_corner (in_rows rows f) (nth k rows 0%nat).
Proof using Type. intros rows [[a b] c] k H. cbn in *. destruct H as [H|[H|H]]; subst; auto. Qed.
Lemma rows_corner_inv : forall rows f v, has_corner (in_rows rows f) v -> exists k, has_corner f k /\ nth k rows 0%nat = v.
Proof using Type. intros rows [[a b] c] v H. cbn in *. destruct H as [H|[H|H]]; [exists a|exists b|exists c]; auto. Qed.
Lemma rows_side : forall rows f a b, In (a, b) (sides f) -> In (nth a rows 0%nat, nth b rows 0%nat) (sides (in_rows rows f)).
Proof using Type. intros rows [[x y] z] a b H. cbn in *. destruct H as [H|[H|[H|[]]]]; injection H; intros; subst; auto. Qed.
Lemma rows_side_inv : forall rows f u v, In (u, v) (sides (in_rows rows f)) -> exists a b, In (a, b) (sides f) /\ nth a rows 0%nat = u /\ nth b rows 0%nat = v.
Proof using Type. intros rows [[x y] z] u v H. cbn in *. destruct H as [H|[H|[H|[]]]]; injection H; intros; subst; [exists x, y|exists y, z|exists z, x]; auto. Qed.
Lemma side_corner : forall f a b, In (a, b) (sides f) -> has_corner f a /\ has_corner f b.
Proof using Type. intros [[x y] z] a b H. cbn in *. destruct H as [H|[H|[H|[]]]]; injection H; intros; subst; auto. Qed.
Lemma rows_corner_at : forall rows f k, AbstractMesh.corner (in_rows rows f) k = nth (AbstractMesh.corner f k) rows 0%nat.
Proof using Type. intros rows [[a b] c] [|[|k]]; reflexivity. Qed.

Lemma thin_keeps : forall s, good s -> exists s', thin s = Ok (Some s') /\ keeps s s'.
Proof using INJ NP NF.
  intros s G. unfold thin_stage. destruct ((n_points =? 0)%nat || (length (s_f s) =? 0)%nat) eqn:Z.
  { exists s. split; [reflexivity|]. split; [exact G|]. split; [lia|]. split; [auto|]. split; [intros x y; reflexivity|]. split; auto. }
  apply orb_false_iff in Z. destruct Z as [Z1 Z2]. apply Nat.eqb_neq in Z1, Z2. destruct G as (D & NC & S & B).
  destruct (thin_spec (length (s_v s)) (vertex s) (moved_vertex aniso s) n_points point target tol max_edge2 near (faces_near (vertex s)) NP (NF (vertex s)) (s_f s) D NC (moved_separate s S) S B)
    as (rows & gs & E & ND & UR & _ & L & D' & NC' & U & BD & _ & H & X).
  rewrite E. cbn [bind option_map fst snd]. set (s' := Surface (map (vertex s) rows) gs false). exists s'. split; [reflexivity|].
  assert (V : forall k, (k < length rows)%nat -> vertex s' k = vertex s (nth k rows 0%nat)).
  { intros k Hk. unfold vertex at 1, s'. cbn [s_v]. rewrite (nth_indep _ _ (vertex s 0%nat)) by (rewrite map_length; exact Hk). apply map_nth. }
  assert (UG : forall f k, In f gs -> has_corner f k -> (k < length rows)%nat) by (intros f k If Hf; apply UR; exists f; auto).
  assert (AT : forall f, In f gs -> at_rows (vertex s') f = at_rows (vertex s) (in_rows rows f)).
  { intros f If. pose proof (UG f) as K. destruct f as [[a b] c]. cbn [at_rows in_rows]. rewrite !V by (apply K; [exact If|cbn; auto]). reflexivity. }
  assert (ATM : forall f, In f gs -> at_rows (moved_vertex aniso s') f = at_rows (moved_vertex aniso s) (in_rows rows f)).
  { intros f If. pose proof (UG f) as K. destruct f as [[a b] c]. cbn [at_rows in_rows]. unfold moved_vertex. rewrite !V by (apply K; [exact If|cbn; auto]). reflexivity. }
  assert (NJ : forall j k, (j < length rows)%nat -> (k < length rows)%nat -> nth j rows 0%nat = nth k rows 0%nat -> j = k) by (apply NoDup_nth; exact ND).
  assert (US : forall k, used gs k -> used (map (in_rows rows) gs) (nth k rows 0%nat)).
  { intros k (f & If & Hf). exists (in_rows rows f). split; [apply in_map; exact If|apply rows_corner; exact Hf]. }
  assert (HD : forall a b, has_directed gs a b -> has_directed (map (in_rows rows) gs) (nth a rows 0%nat) (nth b rows 0%nat)).
  { intros a b (f & If & Hf). exists (in_rows rows f). split; [apply in_map; exact If|apply rows_side; exact Hf]. }
  assert (HDI : forall u v, has_directed (map (in_rows rows) gs) u v -> exists a b, has_directed gs a b /\ nth a rows 0%nat = u /\ nth b rows 0%nat = v /\ (a < length rows)%nat /\ (b < length rows)%nat).
  { intros u v (f & If & Hf). apply in_map_iff in If. destruct If as (g & <- & Ig). apply rows_side_inv in Hf. destruct Hf as (a & b & Hg & Ea & Eb). exists a, b.
    destruct (side_corner g a b Hg) as [Ca Cb]. split; [exists g; auto|]. split; [exact Ea|]. split; [exact Eb|]. split; [apply (UG g)|apply (UG g)]; assumption. }
  assert (BDI : forall a b, on_boundary gs a b <-> (a < length rows)%nat /\ (b < length rows)%nat /\ on_boundary (map (in_rows rows) gs) (nth a rows 0%nat) (nth b rows 0%nat)).
  { intros a b. split.
    - intros [P Q]. destruct P as (f & If & Hf). destruct (side_corner f a b Hf) as [Ca Cb]. pose proof (UG f a If Ca) as La. pose proof (UG f b If Cb) as Lb. split; [exact La|]. split; [exact Lb|].
      split; [apply HD; exists f; auto|]. intros W. apply HDI in W. destruct W as (b' & a' & W & Eb & Ea & Lb' & La'). apply NJ in Ea, Eb; try assumption. subst. contradiction.
    - intros (La & Lb & P & Q). split; [|intros W; apply Q, HD, W]. apply HDI in P. destruct P as (a' & b' & W & Ea & Eb & La' & Lb'). apply NJ in Ea, Eb; try assumption. subst. exact W. }
  split; [split; [|split; [|split]]|].
  - cbn [s_f s']. apply Forall_forall. intros f If. rewrite Forall_forall in D'. specialize (D' (in_rows rows f) (in_map _ _ _ If)). destruct f as [[a b] c]. cbn in *. destruct D' as (D1 & D2 & D3).
    split; [intros ->; apply D1; reflexivity|]. split; [intros ->; apply D2; reflexivity|intros ->; apply D3; reflexivity].
  - cbn [s_f s']. intros (g & h & N & Sg & Sh & T & HH). apply NC'. exists g, h. rewrite map_length. split; [exact N|]. split; [exact Sg|]. split; [exact Sh|].
    destruct Sg as [Sg _], Sh as [Sh _].
    assert (M : forall i, (i < length gs)%nat -> nth i (map (in_rows rows) gs) (0, 0, 0)%nat = in_rows rows (nth i gs (0, 0, 0)%nat)).
    { intros i Hi. rewrite (nth_indep _ _ (in_rows rows (0, 0, 0)%nat)) by (rewrite map_length; exact Hi). apply map_nth. }
    unfold tail, head in *. rewrite !M by assumption. rewrite !rows_corner_at. rewrite T, HH. split; reflexivity.
  - cbn [s_f s']. intros u v Hu Hv Q. assert (Lu : (u < length rows)%nat) by (apply UR; exact Hu). assert (Lv : (v < length rows)%nat) by (apply UR; exact Hv).
    fold s' in Q. rewrite !V in Q by assumption. apply NJ; [exact Lu|exact Lv|]. apply S; [apply U, US, Hu|apply U, US, Hv|exact Q].
  - cbn [s_f s_v s']. intros v Hv. rewrite map_length. apply UR. exact Hv.
  - split; [cbn [s_f s']; rewrite map_length in L; exact L|]. split.
    { intros x (v & Hv & Q). cbn [s_f s'] in Hv. fold s' in Q. rewrite V in Q by (apply UR; exact Hv). exists (nth v rows 0%nat). split; [apply U, US, Hv|exact Q]. }
    split.
    { intros x y. split; intros (u & v & Q & R1 & R2).
      - cbn [s_f s'] in Q. fold s' in R1, R2. apply BDI in Q. destruct Q as (Lu & Lv & Q). rewrite V in R1, R2 by assumption. exists (nth u rows 0%nat), (nth v rows 0%nat). split; [apply BD, Q|auto].
      - apply BD in Q. assert (Q' := Q). destruct Q as [Q _]. apply HDI in Q. destruct Q as (a & b & _ & Ea & Eb & La & Lb). subst u v. exists a, b. split; [cbn [s_f s']; apply BDI; auto|].
        fold s'. rewrite !V by assumption. auto. }
    split.
    { intros i Hi Hh. specialize (H i Hi Hh). destruct H as (f & x & If & Ix & Dx). apply in_map_iff in If. destruct If as (g & <- & Ig). exists g, x. split; [exact Ig|]. fold s'. rewrite (ATM g Ig). auto. }
    intros C f g If Ig. cbn [s_f s'] in If, Ig. fold s'. rewrite (AT f If), (AT g Ig).
    destruct (Nat.eq_dec (let '(a, _, _) := f in a) (let '(a, _, _) := g in a)) as [Q|Q].
    { left. destruct f as [[a b] c], g as [[a' b'] c']. cbn in Q. subst a'. exists a. cbn. auto. }
    assert (NE : in_rows rows f <> in_rows rows g).
    { intros Y. apply Q. pose proof (UG f) as Kf. pose proof (UG g) as Kg. destruct f as [[a b] c], g as [[a' b'] c']. cbn [in_rows] in Y. injection Y as Y _ _. apply NJ; [apply Kf; [exact If|cbn; auto]|apply Kg; [exact Ig|cbn; auto]|exact Y]. }
    destruct (X (in_rows rows f) (in_rows rows g) (in_map _ _ _ If) (in_map _ _ _ Ig) NE) as [W|[W|[W1 W2]]].
    + right. exact W.
    + left. destruct W as (v & C1 & C2). apply rows_corner_inv in C1, C2. destruct C1 as (k & C1 & E1), C2 as (j & C2 & E2). assert (k = j) by (apply NJ; [apply (UG f); assumption|apply (UG g); assumption|congruence]). subst j. exists k. auto.
    + destruct (C (in_rows rows f) (in_rows rows g) W1 W2) as [(v & C1 & C2)|W]; [|right; exact W].
      left. apply rows_corner_inv in C1, C2. destruct C1 as (k & C1 & E1), C2 as (j & C2 & E2). assert (k = j) by (apply NJ; [apply (UG f); assumption|apply (UG g); assumption|congruence]). subst j. exists k. auto.
Qed.

Theorem polish_keeps : forall s, good s -> exists s', polish smooth thin s = Ok (Some s') /\ keeps s s'.
Proof using INJ NP NF TL.
  intros s G. destruct (thin_keeps s G) as (s1 & E1 & K1). destruct (smooth_keeps s1 (proj1 K1)) as (s2 & E2 & K2).
  destruct (thin_keeps s2 (proj1 K2)) as (s3 & E3 & K3). destruct (smooth_keeps s3 (proj1 K3)) as (s4 & E4 & K4).
  exists s4. split; [unfold polish; rewrite E1; cbn [bind_opt bind]; rewrite E2; cbn [bind_opt bind]; rewrite E3; cbn [bind_opt bind]; exact E4|].
  apply (keeps_trans s s1); [exact K1|]. apply (keeps_trans s1 s2); [exact K2|]. apply (keeps_trans s2 s3); assumption.
Qed.

(** * The whole *)
Variables cluster refine smooth0 clip : surface -> outcome (option surface).
Variable snap : surface -> outcome (option (surface * nat)).
Variable hash : surface -> Z.
Hypothesis HC : forall s, good s -> exists s', cluster s = Ok (Some s') /\ good s'.
Hypothesis HR : forall s, good s -> exists s', refine s = Ok (Some s') /\ good s'.
Hypothesis HS0 : forall s, good s -> exists s', smooth0 s = Ok (Some s') /\ good s'.
Hypothesis HS : forall s, good s -> exists s' k, snap s = Ok (Some (s', k)) /\ good s' /\ (k = 0%nat -> forall i, (i < n_points)%nat -> honors aniso target tol s' i).

Lemma turn_keeps : forall s, good s -> exists s' k, turn smooth snap s = Ok (Some (s', k)) /\ good s' /\ (k = 0%nat -> forall i, (i < n_points)%nat -> honors aniso target tol s' i).
Proof using INJ NP NF TL HS.
  intros s G. destruct (HS s G) as (s1 & k & E & G1 & H). destruct (smooth_keeps s1 G1) as (s2 & E2 & K). exists s2, k.
  unfold turn. rewrite E. cbn [bind_opt bind fst snd]. rewrite E2. cbn [bind_opt bind]. split; [reflexivity|]. split; [apply K|]. intros Z i Hi. apply K; [exact Hi|]. apply H; assumption.
Qed.
Lemma turns_keeps : forall n s hs, good s -> exists s', turns smooth snap hash n s hs = Ok (Some s') /\ good s'.
Proof using INJ NP NF TL HS.
  induction n as [|n IH]; intros s hs G; [exists s; auto|]. cbn [turns]. destruct (turn_keeps s G) as (s1 & k & E & G1 & _). rewrite E. cbn [bind_opt bind fst snd].
  destruct (k =? 0)%nat; [exists s1; auto|]. destruct (existsb _ hs); [exists s1; auto|]. apply IH. exact G1.
Qed.
Lemma path_keeps : forall l s x, good s -> path (turn smooth snap) s (l ++ [x]) -> good (fst x) /\ (snd x = 0%nat -> forall i, (i < n_points)%nat -> honors aniso target tol (fst x) i).
Proof using INJ NP NF TL HS.
  induction l as [|y l IH]; intros s x G P; inversion P as [|? s' k ? T P']; subst; destruct (turn_keeps s G) as (s1 & k1 & E & G1 & H); rewrite E in T; injection T as -> ->.
  - cbn [fst snd]. auto.
  - apply (IH s' x G1 P').
Qed.
Theorem generate_good : forall start negative refining, good start -> is_empty start = false ->
  exists s2 s3 l k s4, good s2 /\ path (turn smooth snap) s2 (l ++ [(s3, k)]) /\ (length l < 20)%nat /\ (k = 0%nat \/ In (hash s3) (map (fun x => hash (fst x)) l) \/ length l = 19%nat) /\
    (if (n_points =? 0)%nat then s4 = s2 else keeps s3 s4 /\ (k = 0%nat -> forall i, (i < n_points)%nat -> honors aniso target tol s4 i)) /\ good s4 /\
    generate_common cluster refine smooth0 smooth thin clip snap hash start negative refining n_points =
      let? s := clip s4 in Ok (Some (if is_empty s && negative then entire else s)).
Proof using INJ NP NF TL HC HR HS0 HS.
  intros start negative refining G NE.
  destruct (HC start G) as (a1 & A1 & Ga1). destruct (HS0 a1 Ga1) as (a2 & A2 & Ga2). destruct (HC a2 Ga2) as (a3 & A3 & Ga3).
  assert (RF : exists a4, (if refining then refine a3 else Ok (Some a3)) = Ok (Some a4) /\ good a4) by (destruct refining; [apply HR; exact Ga3|exists a3; auto]). destruct RF as (a4 & A4 & Ga4).
  destruct (HS0 a4 Ga4) as (s2 & A5 & G2).
  destruct (turns_keeps 20 s2 [] G2) as (s3 & T & G3). destruct (turns_spec smooth snap hash 19 s2 [] s3 T (NoDup_nil _)) as (l & k & P & L & _ & _ & _ & R).
  destruct (polish_keeps s3 G3) as (s4 & PO & K4). destruct (path_keeps l s2 (s3, k) G2 P) as [_ HH]. cbn [fst snd] in HH.
  exists s2, s3, l, k, (if (n_points =? 0)%nat then s2 else s4). split; [exact G2|]. split; [exact P|]. split; [lia|]. split; [exact R|]. split.
  { destruct (n_points =? 0)%nat; [reflexivity|]. split; [exact K4|]. intros Z i Hi. apply K4; [exact Hi|]. apply HH; assumption. }
  split; [destruct (n_points =? 0)%nat; [exact G2|apply K4]|].
  unfold generate_common. rewrite NE. unfold first_pass. rewrite A1. cbn [bind_opt bind]. rewrite A2. cbn [bind_opt bind]. rewrite A3. cbn [bind_opt bind]. rewrite A4. cbn [bind_opt bind]. rewrite A5. cbn [bind_opt bind].
  destruct (n_points =? 0)%nat; [reflexivity|]. rewrite T. cbn [bind_opt bind]. rewrite PO. reflexivity.
Qed.
End Stage.

(** * Validation *)
Local Open Scope R_scope.
Lemma fold_min_ge : forall ts t z, z <= fold_left Rmin ts t <-> forall x, In x (t :: ts) -> z <= x.
Proof.
  induction ts as [|u ts IH]; intros t z; cbn [fold_left]; [split; [intros H x [<-|[]]; exact H|intros H; apply H; left; reflexivity]|]. rewrite IH. split.
  - intros H x [<-|[<-|I]]; [|pose proof (H (Rmin t u) (or_introl eq_refl)); pose proof (Rmin_r t u); lra|apply H; right; exact I].
    pose proof (H (Rmin t u) (or_introl eq_refl)). pose proof (Rmin_l t u). lra.
  - intros H x [<-|I]; [apply Rmin_glb; apply H; cbn; auto|apply H; cbn; auto].
Qed.
Lemma fold_max_le : forall ts t z, fold_left Rmax ts t <= z <-> forall x, In x (t :: ts) -> x <= z.
Proof.
  induction ts as [|u ts IH]; intros t z; cbn [fold_left]; [split; [intros H x [<-|[]]; exact H|intros H; apply H; left; reflexivity]|]. rewrite IH. split.
  - intros H x [<-|[<-|I]]; [|pose proof (H (Rmax t u) (or_introl eq_refl)); pose proof (Rmax_r t u); lra|apply H; right; exact I].
    pose proof (H (Rmax t u) (or_introl eq_refl)). pose proof (Rmax_l t u). lra.
  - intros H x [<-|I]; [apply Rmax_lub; apply H; cbn; auto|apply H; cbn; auto].
Qed.
Theorem validation_spec : forall points ts,
  (set_snap_points points ts = Ok (points, ts) <-> ts = [] \/ (length ts = length points /\ Forall (fun t => 0 <= t <= 1) ts)) /\
  (set_snap_points points ts = Ok (points, ts) \/ set_snap_points points ts = Throw ExInvalidArgument).
Proof.
  intros points [|t ts]; [split; [split; [left; reflexivity|reflexivity]|left; reflexivity]|]. cbn [set_snap_points]. destruct (Nat.eqb_spec (length (t :: ts)) (length points)) as [L|L]; cbn [negb].
  - unfold leb. destruct (Rle_dec 0 (fold_left Rmin ts t)) as [A|A]; destruct (Rle_dec (fold_left Rmax ts t) 1) as [B|B]; cbn [andb negb].
    + split; [|left; reflexivity]. split; [|reflexivity]. intros _. right. split; [exact L|]. rewrite fold_min_ge in A. rewrite fold_max_le in B. apply Forall_forall. intros x I. split; [apply A|apply B]; exact I.
    + split; [|right; reflexivity]. split; [discriminate|]. intros [H|[_ H]]; [discriminate|]. exfalso. apply B. apply fold_max_le. rewrite Forall_forall in H. intros x I. apply H, I.
    + split; [|right; reflexivity]. split; [discriminate|]. intros [H|[_ H]]; [discriminate|]. exfalso. apply A. apply fold_min_ge. rewrite Forall_forall in H. intros x I. apply H, I.
    + split; [|right; reflexivity]. split; [discriminate|]. intros [H|[_ H]]; [discriminate|]. exfalso. apply A. apply fold_min_ge. rewrite Forall_forall in H. intros x I. apply H, I.
  - split; [|right; reflexivity]. split; [discriminate|]. intros [H|[H _]]; [discriminate|contradiction].
Qed.
