From Coq Require Import List Arith ZArith Reals Bool Lia Lra.
From Verif Require Import Proofs.LatticeVertices Proofs.LatticeLayers Proofs.LatticeFill Proofs.LatticeMesh Proofs.LatticeSurface.
From Verif Require Import Model.Outcome Model.Clip Model.PointTriangle Model.MeshDefects Model.Solver Model.Lattice Model.SeedTracking Spec.Lattice Spec.SeedTracking.
Import ListNotations.

(** ** Helpers *)
Lemma mem_in : forall x l, mem x l = true <-> In x l.
Proof.
  intros x l. unfold mem. rewrite existsb_exists. split.
  - intros (y & Y & E). apply lc_eqb_true in E. subst. auto.
  - intros H. exists x. split; auto. apply lc_eqb_true. auto.
Qed.
Lemma mem_pair_in : forall p l, mem_pair p l = true <-> In p l.
Proof.
  intros p l. unfold mem_pair. rewrite existsb_exists. split.
  - intros (y & Y & E). apply andb_true_iff in E. destruct E as [E1 E2]. apply lc_eqb_true in E1, E2. destruct p, y; cbn in *. subst. auto.
  - intros H. exists p. split; auto. apply andb_true_iff. split; apply lc_eqb_true; auto.
Qed.
Lemma insert_lc_in : forall x y l, In y (insert_lc x l) <-> y = x \/ In y l.
Proof. intros x y l. induction l as [|z l IH]; cbn; [intuition congruence|]. destruct (lc_less z x); cbn; rewrite ?IH; intuition congruence. Qed.
Lemma sort_lc_in : forall y l, In y (sort_lc l) <-> In y l.
Proof. intros y l. induction l as [|z l IH]; cbn; [tauto|]. fold (sort_lc l). rewrite insert_lc_in, IH. intuition congruence. Qed.
Lemma unique_from_in : forall l x y, In y (x :: unique_from x l) <-> In y (x :: l).
Proof.
  induction l as [|z l IH]; intros x y; [reflexivity|]. cbn [unique_from]. destruct (lc_eqb x z) eqn:E.
  - apply lc_eqb_true in E. subst z. rewrite IH. cbn. tauto.
  - specialize (IH z y). cbn [In] in *. tauto.
Qed.
Lemma unique_in : forall l y, In y (unique l) <-> In y l.
Proof. intros [|x l] y; [reflexivity|]. apply unique_from_in. Qed.
Lemma pair_of_cases : forall a b, pair_of a b = (a, b) \/ pair_of a b = (b, a).
Proof. intros a b. unfold pair_of. destruct (lc_less a b); auto. Qed.
Lemma around_in : forall x y, In y (around x) <-> adjacent x y.
Proof.
  intros x y. rewrite adjacent_iff. unfold around. rewrite in_map_iff. split.
  - intros (e & <- & H). apply in_seq in H. exists e. split; [lia|auto].
  - intros (e & L & ->). exists e. split; auto. apply in_seq. lia.
Qed.
Lemma adjacent_sym : forall a b, adjacent a b -> adjacent b a.
Proof. intros a b (d & H & E). exists d. split; auto. tauto. Qed.
Lemma adjacent_irrefl : forall a, ~ adjacent a a.
Proof.
  intros [[a b] c] ([[p q] r] & (_ & _ & _ & N) & E). apply N. cbn in E. destruct E as [E|E]; injection E; intros; f_equal; [f_equal| |f_equal|]; lia.
Qed.
Lemma abs_less_trans : forall a b c, abs_less a b = true -> abs_less b c = true -> abs_less a c = true.
Proof.
  intros [a|] [b|] [c|]; cbn; try discriminate. destruct (Rlt_dec (Rabs a) (Rabs b)); [|discriminate]. destruct (Rlt_dec (Rabs b) (Rabs c)); [|discriminate].
  destruct (Rlt_dec (Rabs a) (Rabs c)); auto. exfalso. lra.
Qed.
Lemma abs_less_irrefl : forall a, abs_less a a = false.
Proof. intros [a|]; cbn; auto. destruct (Rlt_dec (Rabs a) (Rabs a)); auto. exfalso. lra. Qed.

(** ** The nodes at a distance *)
Section Distance.
Variable eligible : lc -> bool.
Lemma discover_all : forall ys V F, NoDup F -> incl F V ->
  let r := fold_left (discover eligible) ys (V, F) in
  (forall y, In y (fst r) <-> In y V \/ (In y ys /\ eligible y = true)) /\
  (forall y, In y (snd r) <-> In y F \/ (In y ys /\ eligible y = true /\ ~ In y V)) /\ NoDup (snd r).
Proof.
  induction ys as [|a ys IH]; intros V F ND I0; cbn [fold_left].
  - cbn. split; [intros; tauto|]. split; [intros; tauto|auto].
  - unfold discover at 2 4 6. cbn [fst snd]. destruct (mem a V) eqn:M.
    + apply mem_in in M. destruct (IH V F ND I0) as (A & B & C). cbv zeta in *. split; [|split; [|exact C]].
      * intros y. rewrite A. cbn [In]. split; [tauto|]. intros [H|[[<-|H] E]]; auto.
      * intros y. rewrite B. cbn [In]. split; [tauto|]. intros [H|[[<-|H] E]]; auto. tauto.
    + assert (~ In a V) as NM by (rewrite <- mem_in; congruence). destruct (eligible a) eqn:EL.
      * destruct (IH (a :: V) (F ++ [a])) as (A & B & C).
        { apply (NoDup_Add (Add_app a F [])). split; [rewrite app_nil_r; auto|]. rewrite app_nil_r. intros Y. apply NM, I0, Y. }
        { intros y Y. apply in_app_iff in Y. destruct Y as [Y|[<-|[]]]; [right; auto|left; auto]. }
        cbv zeta in *. split; [|split; [|exact C]].
        -- intros y. rewrite A. cbn [In]. split; [intros [[<-|H]|H]; auto; tauto|]. intros [H|[[<-|H] E]]; auto.
        -- intros y. rewrite B, in_app_iff. cbn [In]. split.
           ++ intros [[H|[<-|[]]]|(H & E & N)]; auto. right. tauto.
           ++ intros [H|[[<-|H] [E N]]]; auto. destruct (lc_dec a y) as [<-|D]; auto. right. split; auto. split; auto. intros [Q|Q]; auto.
      * destruct (IH V F ND I0) as (A & B & C). cbv zeta in *. split; [|split; [|exact C]].
        -- intros y. rewrite A. cbn [In]. split; [tauto|]. intros [H|[[<-|H] E]]; auto. congruence.
        -- intros y. rewrite B. cbn [In]. split; [tauto|]. intros [H|[[<-|H] [E N]]]; auto. congruence.
Qed.
Lemma reach_inv : forall x k z, reach eligible x (S k) z -> exists y, reach eligible x k y /\ adjacent y z /\ eligible z = true.
Proof. intros x k z H. inversion H; subst. eauto. Qed.
Lemma rings : forall x k, let r := Nat.iter k (expand eligible) ([x], [x]) in
  (forall y, In y (fst r) <-> exists j, j <= k /\ reach eligible x j y) /\ (forall y, In y (snd r) <-> at_distance eligible x k y) /\ NoDup (snd r).
Proof.
  intros x. induction k as [|k IH].
  - cbn. split; [|split; [|repeat constructor; auto]].
    + intros y. split.
      * intros [<-|[]]. exists 0. split; [lia|constructor].
      * intros (j & L & R0). assert (j = 0) as -> by lia. inversion R0; subst. auto.
    + intros y. split.
      * intros [<-|[]]. split; [constructor|]. intros j L. lia.
      * intros [R0 _]. inversion R0; subst. auto.
  - change (Nat.iter (S k) (expand eligible) ([x], [x])) with (expand eligible (Nat.iter k (expand eligible) ([x], [x]))).
    cbv zeta in *. set (r := Nat.iter k (expand eligible) ([x], [x])) in *. destruct IH as (A & B & C).
    change (expand eligible r) with (fold_left (discover eligible) (flat_map around (snd r)) (fst r, [])). destruct (discover_all (flat_map around (snd r)) (fst r) []) as (A1 & B1 & C1); [constructor|intros y []|]. cbv zeta in *.
    assert (Q : forall y, In y (flat_map around (snd r)) <-> exists z, at_distance eligible x k z /\ adjacent z y).
    { intros y. rewrite in_flat_map. split; intros (z & Z1 & Z2); exists z; [rewrite <- B, <- around_in; auto|rewrite B, around_in; auto]. }
    assert (D : forall y, reach eligible x (S k) y -> (forall j, j <= k -> ~ reach eligible x j y) -> exists z, at_distance eligible x k z /\ adjacent z y).
    { intros y R0 N. destruct (reach_inv x k y R0) as (z & Z1 & Z2 & Z3). exists z. split; auto. split; auto. intros j L RJ. apply (N (S j)); [lia|]. apply (reach_step _ _ j z); auto. }
    split; [|split; [|exact C1]].
    + intros y. rewrite A1, A, Q. split.
      * intros [(j & L & R0)|((z & [Z _] & AD) & E)]; [exists j; split; [lia|auto]|]. exists (S k). split; [lia|]. apply (reach_step _ _ k z); auto.
      * intros (j & L & R0). destruct (in_dec lc_dec y (fst r)) as [Y|Y]; [left; apply A; auto|]. right.
        assert (N : forall i, i <= k -> ~ reach eligible x i y) by (intros i LI RI; apply Y; apply A; eauto).
        assert (j = S k) as -> by (destruct (Nat.eq_dec j (S k)); auto; exfalso; apply (N j); auto; lia).
        split; [apply D; auto|]. destruct (reach_inv x k y R0) as (z & _ & _ & E). exact E.
    + intros y. rewrite B1, Q. split.
      * intros [[]|((z & [Z _] & AD) & E & N)]. split; [apply (reach_step _ _ k z); auto|]. intros j L RJ. apply N. apply A. exists j. split; [lia|auto].
      * intros [R0 N]. right. assert (N' : forall i, i <= k -> ~ reach eligible x i y) by (intros i LI; apply N; lia).
        split; [apply D; auto|]. destruct (reach_inv x k y R0) as (z & _ & _ & E). split; [exact E|]. intros Y. apply A in Y. destruct Y as (j & L & RJ). apply (N' j); auto.
Qed.
Lemma knn_in : forall x k y, In y (knn_nodes eligible x k) <-> at_distance eligible x k y.
Proof. intros x k y. apply (rings x k). Qed.
Lemma knn_nodup : forall x k, NoDup (knn_nodes eligible x k).
Proof. intros x k. apply (rings x k). Qed.
Lemma distance_eligible : forall x k y, at_distance eligible x (S k) y -> eligible y = true.
Proof. intros x k y [R0 _]. destruct (reach_inv x k y R0) as (z & _ & _ & E). exact E. Qed.
Lemma distance_1 : forall x y, at_distance eligible x 1 y <-> adjacent x y /\ eligible y = true.
Proof.
  intros x y. split.
  - intros [R0 _]. destruct (reach_inv x 0 y R0) as (z & Z & A & E). inversion Z; subst. auto.
  - intros [A E]. split; [apply (reach_step _ _ 0 x); auto; constructor|]. intros j L RJ. assert (j = 0) as -> by lia. inversion RJ; subst. apply (adjacent_irrefl _ A).
Qed.
Lemma boundary_interior : forall y, eligible y = true -> (is_boundary_node eligible y = false <-> interior eligible y).
Proof.
  intros y E. unfold is_boundary_node, interior. split.
  - intros H. split; auto. intros z A. destruct (eligible z) eqn:EZ; auto. exfalso. assert (existsb (fun y => negb (eligible y)) (around y) = true); [|congruence].
    apply existsb_exists. exists z. split; [apply around_in; auto|]. rewrite EZ. auto.
  - intros [_ H]. destruct (existsb _ _) eqn:X; auto. apply existsb_exists in X. destruct X as (z & Z & N). apply around_in in Z. rewrite (H z Z) in N. discriminate.
Qed.
End Distance.

Section Run.
Variables (eligible : lc -> bool) (pos : lc -> pt) (descent : lattice -> lc -> option pt) (field : lc -> num) (f : field_fn) (B : list lc).
Hypothesis F : forall ys, f ys = Ok (map field ys).
Hypothesis HB : forall x, eligible x = true -> In x B.

(** ** Nodes that are sampled, and nodes that wait for their value *)
Definition partly (N P : list lc) (l : lattice) : Prop :=
  exists l0, sampled field N l0 /\ l = fold_left emplace_node P l0 /\ NoDup P /\ (forall x, In x P -> l_nodes l0 x = None) /\
  (forall x, In x N -> eligible x = true) /\ forall x, In x P -> eligible x = true.
Lemma partly_start : forall N l, sampled field N l -> (forall x, In x N -> eligible x = true) -> partly N [] l.
Proof. intros N l S E. exists l. split; auto. split; auto. split; [constructor|]. split; [intros x []|]. split; [auto|intros x []]. Qed.
Lemma partly_nodes : forall N P l x, partly N P l -> (l_nodes l x <> None <-> In x N \/ In x P).
Proof.
  intros N P l x (l0 & (_ & _ & _ & NN) & -> & ND & AB & _). destruct (emplace_all P l0 ND AB) as (_ & _ & A & C). destruct (in_dec lc_dec x P) as [I0|I0].
  - rewrite A by auto. split; [auto|discriminate].
  - rewrite C by auto. rewrite NN. tauto.
Qed.
Lemma partly_value : forall N P l x, partly N P l -> In x N -> at_ l x = Ok (set_value new_node (field x)).
Proof.
  intros N P l x (l0 & (_ & _ & NV & NN) & -> & ND & AB & _) I0. destruct (emplace_all P l0 ND AB) as (_ & _ & A & C).
  unfold at_. apply NN in I0. rewrite C by (intros Q; apply AB in Q; congruence). destruct (l_nodes l0 x) as [n|] eqn:Q; [|congruence]. rewrite (NV x n Q). reflexivity.
Qed.
Lemma partly_add : forall N P l xs, partly N P l -> exists P', partly N P' (add_all eligible l xs) /\ incl P P' /\ forall x, In x xs -> eligible x = true -> In x N \/ In x P'.
Proof.
  intros N P l xs PL. unfold add_all. destruct (add_nodes_spec eligible xs l) as (ad & -> & ND & A1 & A2). cbn [fst]. exists (P ++ ad).
  pose proof (fun x => partly_nodes N P l x PL) as PN. destruct PL as (l0 & S & E & NP & AB & EN & EP). split; [|split].
  - exists l0. split; auto. split; [rewrite fold_left_app, <- E; auto|]. split; [|split; [|split; auto]].
    + clear - ND NP A1 PN. revert ND A1. induction ad as [|a ad IH]; intros ND A1; [rewrite app_nil_r; auto|]. inversion ND; subst.
      apply (NoDup_Add (Add_app a P ad)). split; [apply IH; auto; intros x X; apply A1; right; auto|]. intros Q. apply in_app_iff in Q. destruct Q as [Q|Q]; [|auto].
      destruct (A1 a) as [AN _]; [left; auto|]. apply (proj2 (PN a)); auto.
    + intros x X. apply in_app_iff in X. destruct X as [X|X]; auto. apply A1 in X. destruct X as [X _]. destruct (l_nodes l0 x) eqn:Q; auto. exfalso.
      apply (proj2 (PN x)); auto. left. apply S. congruence.
    + intros x X. apply in_app_iff in X. destruct X as [X|X]; auto. apply A1 in X. tauto.
  - intros x X. apply in_app_iff. auto.
  - intros x X E'. destruct (A2 x X E') as [Q|Q]; [|right; apply in_app_iff; auto]. apply PN in Q. rewrite in_app_iff. tauto.
Qed.
Lemma partly_evaluate : forall N P l, partly N P l -> exists l', evaluate_field f l = Ok (l', None) /\ sampled field (N ++ P) l' /\ forall x, In x (N ++ P) -> eligible x = true.
Proof.
  intros N P l (l0 & S & -> & ND & AB & EN & EP). destruct (eval_sampled field f N l0 P S ND AB F) as (l' & E & S'). exists l'. split; auto. split; auto.
  intros x X. apply in_app_iff in X. destruct X; auto.
Qed.

(** ** Looking around a seed *)
Definition smaller (x y : lc) : bool := abs_less (field y) (field x).
Definition within_nodes (N : list lc) (ps : list (lc * lc)) : Prop := forall p, In p ps -> In (fst p) N /\ In (snd p) N.
Lemma within_app : forall N ps qs, within_nodes N ps -> within_nodes N qs -> within_nodes N (ps ++ qs).
Proof. intros N ps qs H K p X. apply in_app_iff in X. destruct X; auto. Qed.
Lemma within_incl : forall N M ps, within_nodes N ps -> incl N M -> within_nodes M ps.
Proof. intros N M ps H I0 p X. destruct (H p X). auto. Qed.
Lemma within_pair : forall N a b, In a N -> In b N -> within_nodes N [pair_of a b].
Proof. intros N a b A C p [<-|[]]. destruct (pair_of_cases a b) as [-> | ->]; auto. Qed.
Lemma scan_spec : forall N P l x k ys ps nlcs reached, partly N P l -> In x N -> incl ys N -> within_nodes N ps ->
  exists ps' r, scan eligible l x (set_value new_node (field x)) k ys ps nlcs reached = Ok (ps', r) /\ within_nodes N ps' /\ incl ps ps' /\
  match r with
  | None => k = 1 /\ exists y, In y ys /\ neg (field y) <> neg (field x) /\ In (pair_of x y) ps'
  | Some (nl, re) => (k = 1 -> forall y, In y ys -> neg (field y) <> neg (field x) -> In (pair_of x y) ps') /\ nl = nlcs ++ filter (fun y => smaller x y && negb (is_boundary_node eligible y)) ys /\ re = reached && forallb (fun y => negb (smaller x y)) ys
  end.
Proof.
  intros N P l x k ys. induction ys as [|y ys IH]; intros ps nlcs reached PL X I0 W; cbn [scan].
  - exists ps, (Some (nlcs, reached)). split; auto. split; auto. split; [apply incl_refl|]. cbn. rewrite app_nil_r, andb_true_r. split; [intros _ y []|auto].
  - rewrite (partly_value N P l y PL) by (apply I0; left; auto). cbn [bind]. cbv zeta. cbn [value set_value n_value bind].
    set (crossing := (k =? 1) && negb (Bool.eqb (neg (field y)) (neg (field x)))).
    assert (IY : incl ys N) by (intros z Z; apply I0; right; auto).
    assert (WP : within_nodes N (if crossing then ps ++ [pair_of x y] else ps)).
    { destruct crossing; auto. apply within_app; auto. apply within_pair; auto. apply I0. left. auto. }
    assert (IP : incl ps (if crossing then ps ++ [pair_of x y] else ps)) by (destruct crossing; [apply incl_appl|]; apply incl_refl).
    assert (CP : k = 1 -> neg (field y) <> neg (field x) -> In (pair_of x y) (if crossing then ps ++ [pair_of x y] else ps)).
    { intros K1 NE. replace crossing with true; [apply in_app_iff; right; left; auto|]. unfold crossing. rewrite K1. cbn. symmetry. apply negb_true_iff, eqb_false_iff. auto. }
    destruct (crossing && negb (is_boundary_node eligible y)) eqn:CB.
    + exists (if crossing then ps ++ [pair_of x y] else ps), None. split; auto. split; auto. split; auto. apply andb_true_iff in CB. destruct CB as [CB _]. unfold crossing in CB.
      apply andb_true_iff in CB. destruct CB as [C1 C2]. apply Nat.eqb_eq in C1. split; auto. exists y. split; [left; auto|]. apply negb_true_iff, eqb_false_iff in C2. auto.
    + cbn [filter forallb]. change (abs_less (field y) (field x)) with (smaller x y). destruct (smaller x y) eqn:SM.
      * destruct (IH (if crossing then ps ++ [pair_of x y] else ps) (if is_boundary_node eligible y then nlcs else nlcs ++ [y]) false PL X IY WP) as (ps' & r & E & W' & IP' & R).
        exists ps', r. split; [exact E|]. split; auto. split; [eapply incl_tran; eauto|]. destruct r as [[nl re]|].
        -- destruct R as [R0 [R1 R2]]. split; [intros K1 z [<-|Z] NE; [apply IP', CP|apply R0]; auto|]. cbn [negb andb] in *. split; [|rewrite andb_false_r; exact R2]. rewrite R1. destruct (is_boundary_node eligible y); auto. cbn [negb]. rewrite <- app_assoc. reflexivity.
        -- destruct R as (R1 & z & Z1 & Z2). split; auto. exists z. split; [right; auto|auto].
      * destruct (IH (if crossing then ps ++ [pair_of x y] else ps) nlcs reached PL X IY WP) as (ps' & r & E & W' & IP' & R).
        exists ps', r. split; [exact E|]. split; auto. split; [eapply incl_tran; eauto|]. destruct r as [[nl re]|].
        -- cbn [negb andb]. destruct R as [R0 R]. split; [intros K1 z [<-|Z] NE; [apply IP', CP|apply R0]; auto|exact R].
        -- destruct R as (R1 & z & Z1 & Z2). split; auto. exists z. split; [right; auto|auto].
Qed.
Lemma read_values_ok : forall N P l xs, partly N P l -> incl xs N -> read_values l xs = Ok tt.
Proof.
  intros N P l xs PL. induction xs as [|x xs IH]; intros I0; auto. cbn [read_values]. rewrite (partly_value N P l x PL) by (apply I0; left; auto).
  cbn [bind value set_value n_value]. apply IH. intros y Y. apply I0. right. auto.
Qed.
Lemma nearest_in : forall c g x ys y0, In (nearest pos c g x y0 ys) (y0 :: ys).
Proof.
  intros c g x. unfold nearest. cbv zeta. induction ys as [|y ys IH]; intros y0; [left; auto|]. cbn [fold_left].
  match goal with |- In (fold_left _ ys ?b) _ => specialize (IH b); set (best := b) in * end.
  destruct IH as [IH|IH]; [|right; right; auto]. rewrite <- IH. unfold best. destruct (shorter _ _); [right; left|left]; auto.
Qed.

(** A seed of a round: what was sampled around it and what was tried in vain. *)
Definition good (N : list lc) (ps : list (lc * lc)) (s : seed) : Prop :=
  In (s_lc s) N /\ interior eligible (s_lc s) /\ 1 <= s_k s <= 10 /\ (forall y, adjacent (s_lc s) y -> In y N) /\
  (forall y, at_distance eligible (s_lc s) (s_k s) y -> In y N) /\
  (forall j y, 1 <= j < s_k s -> at_distance eligible (s_lc s) j y -> interior eligible y -> smaller (s_lc s) y = false) /\
  (1 < s_k s -> forall y, adjacent (s_lc s) y -> neg (field y) <> neg (field (s_lc s)) -> In (pair_of (s_lc s) y) ps).
Lemma good_incl : forall N M ps qs s, good N ps s -> incl N M -> incl ps qs -> good M qs s.
Proof.
  intros N M ps qs s (A & C & D & E & G & H & K) I0 I1.
  exact (conj (I0 _ A) (conj C (conj D (conj (fun y Y => I0 _ (E y Y)) (conj (fun y Y => I0 _ (G y Y)) (conj H (fun L y Y Q => I1 _ (K L y Y Q)))))))).
Qed.
Definition below (x : lc) : nat := length (filter (smaller x) B).
Definition measure (s : seed) : nat := below (s_lc s) * 11 + (11 - s_k s).
Definition ended (N : list lc) (ps : list (lc * lc)) (x : lc) : Prop :=
  exists z, descends eligible field x z /\ In z N /\ (forall y, adjacent z y -> In y N) /\ (at_surface eligible field z \/ stuck eligible field z) /\
  (at_surface eligible field z -> exists y, adjacent z y /\ neg (field z) <> neg (field y) /\ In (pair_of z y) ps).
Lemma below_less : forall x y, eligible y = true -> smaller x y = true -> below y < below x.
Proof.
  intros x y E SM. unfold below. apply (filter_lt (smaller y) (smaller x) B y).
  - intros z Z. unfold smaller in *. eapply abs_less_trans; eauto.
  - apply HB. auto.
  - apply abs_less_irrefl.
  - auto.
Qed.
Lemma visit_spec : forall N P l pairs new s, partly N P l -> good N pairs s -> within_nodes N pairs ->
  exists l' pairs' new' P', visit eligible pos descent (l, pairs, new) s = Ok (l', pairs', new ++ new') /\ partly N P' l' /\ incl P P' /\ within_nodes N pairs' /\ incl pairs pairs' /\
  ((new' = [] /\ ended N pairs' (s_lc s)) \/ exists s', new' = [s'] /\ good (N ++ P') pairs' s' /\ descends eligible field (s_lc s) (s_lc s') /\ measure s' < measure s).
Proof.
  intros N P l pairs new s PL G W. pose proof G as (G1 & G2 & G3 & G4 & G5 & G6 & G7). unfold visit. cbv zeta. rewrite (partly_value N P l (s_lc s) PL G1). cbn [bind].
  destruct (scan_spec N P l (s_lc s) (s_k s) (knn_nodes eligible (s_lc s) (s_k s)) [] [] true PL G1) as (ps & r & E & W' & _ & R).
  { intros y Y. apply G5, knn_in, Y. }
  { intros p []. }
  rewrite E. cbn [bind fst snd]. assert (WP : within_nodes N (pairs ++ ps)) by (apply within_app; auto). assert (IPP : incl pairs (pairs ++ ps)) by (apply incl_appl, incl_refl).
  assert (KE : forall y, at_distance eligible (s_lc s) (s_k s) y -> eligible y = true) by (intros y Y; destruct (s_k s) as [|k]; [lia|]; apply (distance_eligible eligible _ k y Y)).
  destruct r as [[nl re]|].
  - destruct R as [R0 [-> ->]]. cbn [app andb].
    assert (CR : forall y, adjacent (s_lc s) y -> neg (field y) <> neg (field (s_lc s)) -> In (pair_of (s_lc s) y) (pairs ++ ps)).
    { intros y Y NE. apply in_app_iff. destruct (Nat.eq_dec (s_k s) 1) as [K1|K1]; [right; apply R0; auto; rewrite K1; apply knn_in, distance_1; split; auto; apply G2; auto|].
      left. apply G7; auto. lia. } destruct (filter _ _) as [|y0 ys] eqn:FL.
    + assert (NI : forall j y, 1 <= j <= s_k s -> at_distance eligible (s_lc s) j y -> interior eligible y -> smaller (s_lc s) y = false).
      { intros j y L D I0. destruct (Nat.eq_dec j (s_k s)) as [->|NE]; [|apply (G6 j y); auto; lia]. destruct (smaller (s_lc s) y) eqn:SM; auto. exfalso.
        assert (In y []); [|auto]. rewrite <- FL. apply filter_In. split; [apply knn_in; auto|]. rewrite SM. cbn [andb]. apply negb_true_iff. apply boundary_interior; auto. }
      assert (END : forall (Q : s_k s = 10 \/ (forall y, at_distance eligible (s_lc s) (s_k s) y -> smaller (s_lc s) y = false) \/ forall y, ~ at_distance eligible (s_lc s) (S (s_k s)) y), ended N (pairs ++ ps) (s_lc s)).
      { intros Q. exists (s_lc s). split; [constructor|]. split; auto. split; auto. split; [right; exists (s_k s); split; auto|].
        intros (y & Y1 & Y2 & Y3). exists y. split; auto. }
      destruct (Nat.leb_spec 10 (s_k s)) as [L|L].
      { exists l, (pairs ++ ps), [], P. cbn [orb]. split; [rewrite app_nil_r; auto|]. split; auto. split; [apply incl_refl|]. split; auto. split; auto. left. split; auto. apply END. left. lia. }
      cbn [orb]. destruct (forallb _ _) eqn:FA.
      { exists l, (pairs ++ ps), [], P. split; [rewrite app_nil_r; auto|]. split; auto. split; [apply incl_refl|]. split; auto. split; auto. left. split; auto. apply END. right. left.
        intros y Y. rewrite forallb_forall in FA. apply knn_in in Y. specialize (FA y Y). apply negb_true_iff. auto. }
      rewrite Nat.add_1_r. destruct (knn_nodes eligible (s_lc s) (S (s_k s))) as [|z zs] eqn:KN.
      { exists l, (pairs ++ ps), [], P. split; [rewrite app_nil_r; auto|]. split; auto. split; [apply incl_refl|]. split; auto. split; auto. left. split; auto. apply END. right. right.
        intros y Y. apply knn_in in Y. rewrite KN in Y. destruct Y. }
      rewrite <- KN. destruct (partly_add N P l (knn_nodes eligible (s_lc s) (S (s_k s))) PL) as (P' & PL' & I0 & AD).
      exists (add_all eligible l (knn_nodes eligible (s_lc s) (S (s_k s)))), (pairs ++ ps), [Seed (s_lc s) (s_corrector s) (S (s_k s))], P'.
      split; auto. split; auto. split; auto. split; auto. split; auto. right. eexists. split; [reflexivity|]. split; [|split; [constructor|]].
      * unfold good. cbn [s_lc s_k]. split; [apply in_app_iff; auto|]. split; auto. split; [lia|]. split; [intros y Y; apply in_app_iff; auto|]. split.
        -- intros y Y. apply in_app_iff. apply AD; [apply knn_in; auto|]. apply (distance_eligible eligible _ _ y Y).
        -- split; [intros j y L' D IY; apply (NI j y); auto; lia|]. intros _ y Y NE. apply CR; auto.
      * unfold measure. cbn [s_lc s_k]. lia.
    + assert (Y0 : forall y, In y (y0 :: ys) -> In y N /\ interior eligible y /\ smaller (s_lc s) y = true).
      { intros y Y. rewrite <- FL in Y. apply filter_In in Y. destruct Y as [Y1 Y2]. apply knn_in in Y1. apply andb_true_iff in Y2. destruct Y2 as [Y2 Y3]. apply negb_true_iff in Y3.
        apply boundary_interior in Y3; auto. }
      rewrite (read_values_ok N P l) by (auto; intros y [<-|Y]; auto; apply G4; apply around_in; unfold around; apply in_map_iff in Y; destruct Y as (e & <- & Y); apply in_map, in_seq; cbn in Y; lia).
      cbn [bind]. set (y := nearest pos (s_corrector s) (descent l (s_lc s)) (s_lc s) y0 ys). destruct (Y0 y (nearest_in _ _ _ ys y0)) as (Y1 & Y2 & Y3).
      destruct (partly_add N P l (knn_nodes eligible y 1) PL) as (P' & PL' & I0 & AD). rewrite (partly_value N P' _ y PL' Y1). cbn [bind].
      match goal with |- context [new ++ [?s']] => exists (add_all eligible l (knn_nodes eligible y 1)), (pairs ++ ps), [s'], P' end.
      split; auto. split; auto. split; auto. split; auto. split; auto. right. eexists. split; [reflexivity|]. split; [|split].
      * assert (N1 : forall z, adjacent y z -> In z (N ++ P')).
        { intros z Z. apply in_app_iff. apply AD; [apply knn_in, distance_1; split; auto; apply Y2; auto|apply Y2; auto]. }
        unfold good. cbn [s_lc s_k]. split; [apply in_app_iff; auto|]. split; auto. split; [lia|]. split; auto. split.
        -- intros z Z. apply distance_1 in Z. apply N1. tauto.
        -- split; [intros j z L; lia|lia].
      * cbn [s_lc]. apply (descends_next _ _ _ (s_lc s)); [constructor|auto|auto].
      * unfold measure. cbn [s_lc s_k]. pose proof (below_less (s_lc s) y (proj1 Y2) Y3). lia.
  - destruct R as (K1 & y & Y & D & DP). exists l, (pairs ++ ps), [], P. split; [rewrite app_nil_r; auto|]. split; auto. split; [apply incl_refl|]. split; auto. split; auto. left. split; auto.
    exists (s_lc s). split; [constructor|]. split; auto. split; auto. rewrite K1 in *. apply knn_in, distance_1 in Y. destruct Y. split; [left; exists y; auto|].
    intros _. exists y. split; auto. split; auto. apply in_app_iff. auto.
Qed.
Lemma ended_incl : forall N M ps qs x, ended N ps x -> incl N M -> incl ps qs -> ended M qs x.
Proof.
  intros N M ps qs x (z & A & C & D & E & G) I0 I1. exists z. split; [exact A|]. split; [exact (I0 _ C)|]. split; [exact (fun y Y => I0 _ (D y Y))|]. split; [exact E|].
  intros Q. destruct (G Q) as (y & Y1 & Y2 & Y3). exists y. auto.
Qed.
Lemma descends_trans : forall x y z, descends eligible field x y -> descends eligible field y z -> descends eligible field x z.
Proof. intros x y z H K. induction K; auto. apply (descends_next _ _ _ y0); auto. Qed.
Lemma ended_descends : forall N ps x y, descends eligible field x y -> ended N ps y -> ended N ps x.
Proof. intros N ps x y H (z & A & C). exists z. split; [eapply descends_trans; eauto|auto]. Qed.
Lemma visits_spec : forall N ss P l pairs new, partly N P l -> (forall s, In s ss -> good N pairs s) -> within_nodes N pairs -> 
  exists l' pairs' new' P', visits eligible pos descent (l, pairs, new) ss = Ok (l', pairs', new ++ new') /\ partly N P' l' /\ incl P P' /\ within_nodes N pairs' /\ incl pairs pairs' /\
  (forall s', In s' new' -> exists s, In s ss /\ good (N ++ P') pairs' s' /\ measure s' < measure s) /\
  forall s, In s ss -> ended N pairs' (s_lc s) \/ exists s', In s' new' /\ descends eligible field (s_lc s) (s_lc s').
Proof.
  intros N. induction ss as [|s ss IH]; intros P l pairs new PL G W; cbn [visits].
  - exists l, pairs, [], P. split; [rewrite app_nil_r; auto|]. split; auto. split; [apply incl_refl|]. split; auto. split; [apply incl_refl|]. split; [intros s' []|intros s []].
  - destruct (visit_spec N P l pairs new s PL) as (l1 & ps1 & new1 & P1 & E1 & PL1 & I1 & W1 & J1 & R1); auto; [apply G; left; auto|]. rewrite E1. cbn [bind].
    destruct (IH P1 l1 ps1 (new ++ new1) PL1) as (l2 & ps2 & new2 & P2 & E2 & PL2 & I2 & W2 & J2 & R2 & D2); auto.
    { intros s0 S0. apply (good_incl N N pairs ps1); auto; [apply G; right; auto|apply incl_refl]. }
    exists l2, ps2, (new1 ++ new2), P2. split; [rewrite E2, app_assoc; auto|]. split; auto. split; [eapply incl_tran; eauto|]. split; auto. split; [eapply incl_tran; eauto|]. split.
    + intros s' S'. apply in_app_iff in S'. destruct S' as [S'|S'].
      * destruct R1 as [[-> _]|(s1 & -> & A & C & D)]; [destruct S'|]. destruct S' as [<-|[]]. exists s. split; [left; auto|]. split; auto. eapply good_incl; [exact A| |exact J2].
        intros x X. apply in_app_iff in X. apply in_app_iff. destruct X; auto.
      * destruct (R2 s' S') as (s0 & A & C). exists s0. split; [right; auto|auto].
    + intros s0 [<-|S0].
      * destruct R1 as [[_ R1]|(s1 & -> & A & C & D)]; [left; eapply ended_incl; [exact R1|apply incl_refl|exact J2]|]. right. exists s1. split; [left; auto|auto].
      * destruct (D2 s0 S0) as [Q|(s' & A & C)]; auto. right. exists s'. split; [apply in_app_iff; auto|auto].
Qed.
Lemma search_spec : forall fuel N l pairs ss, sampled field N l -> (forall x, In x N -> eligible x = true) -> (forall s, In s ss -> good N pairs s) ->
  (forall s, In s ss -> measure s < fuel) -> within_nodes N pairs ->
  exists l' pairs' N', search eligible pos descent f fuel l pairs ss = Ok (Some (l', pairs', None)) /\ sampled field N' l' /\ incl N N' /\
  (forall x, In x N' -> eligible x = true) /\ within_nodes N' pairs' /\ incl pairs pairs' /\ forall s, In s ss -> ended N' pairs' (s_lc s).
Proof.
  induction fuel as [|fuel IH]; intros N l pairs ss S E G M W.
  - destruct ss as [|s ss]; [|specialize (M s (or_introl eq_refl)); lia]. exists l, pairs, N. split; auto. split; auto. split; [apply incl_refl|]. split; auto. split; auto.
    split; [apply incl_refl|intros s []].
  - destruct ss as [|s ss]; cbn [search].
    { exists l, pairs, N. split; auto. split; auto. split; [apply incl_refl|]. split; auto. split; auto. split; [apply incl_refl|intros s []]. }
    set (SS := s :: ss) in *. destruct (visits_spec N SS [] l pairs [] (partly_start N l S E) G W) as (l1 & ps1 & new1 & P1 & E1 & PL1 & I1 & W1 & J1 & R1 & D1).
    rewrite E1. cbn [bind app]. destruct (partly_evaluate N P1 l1 PL1) as (l2 & E2 & S2 & EL2). rewrite E2. cbn [bind].
    assert (IN : incl N (N ++ P1)) by (intros x X; apply in_app_iff; auto).
    destruct (IH (N ++ P1) l2 ps1 new1 S2 EL2) as (l3 & ps3 & N3 & E3 & S3 & I3 & EL3 & W3 & J3 & D3).
    { intros s' S'. destruct (R1 s' S') as (s0 & A & C & D). exact C. }
    { intros s' S'. destruct (R1 s' S') as (s0 & A & C & D). specialize (M s0 A). lia. }
    { eapply within_incl; eauto. }
    exists l3, ps3, N3. split; auto. split; auto. split; [eapply incl_tran; eauto|]. split; auto. split; auto. split; [eapply incl_tran; eauto|].
    intros s0 S0. destruct (D1 s0 S0) as [Q|(s' & A & C)]; [eapply ended_incl; [exact Q|eapply incl_tran; eauto|exact J3]|]. eapply ended_descends; [exact C|apply D3; auto].
Qed.

(** ** Following the surface *)
Lemma app_incl_r : forall (N P P' : list lc), incl P P' -> incl (N ++ P) (N ++ P').
Proof. intros N P P' H x X. apply in_app_iff in X. apply in_app_iff. destruct X; auto. Qed.
(** The common neighbours of visited crossing edges are sampled, and the edges to them are visited or wait. *)
Definition closed (N : list lc) (V W : list (lc * lc)) : Prop :=
  forall a b e, In (a, b) V -> neg (field a) <> neg (field b) -> adjacent a e -> adjacent b e -> eligible e = true -> In e N /\ In (pair_of a e) W /\ In (pair_of b e) W.
Lemma closed_incl : forall N N' V W W', closed N V W -> incl N N' -> incl W W' -> closed N' V W'.
Proof. intros N N' V W W' H I0 I1 a b e A C D E G. destruct (H a b e A C D E G) as (P & Q & T). exact (conj (I0 _ P) (conj (I1 _ Q) (I1 _ T))). Qed.
Lemma add_common_spec : forall N a b ys P l new, partly N P l -> In a N -> In b N ->
  exists l' new' P', add_common eligible l a b ys new = (l', new ++ new') /\ partly N P' l' /\ incl P P' /\ within_nodes (N ++ P') new' /\
  forall e, In e ys -> eligible e = true -> In e (N ++ P') /\ In (pair_of a e) new' /\ In (pair_of b e) new'.
Proof.
  intros N a b. induction ys as [|y ys IH]; intros P l new PL A C; cbn [add_common].
  - exists l, [], P. rewrite app_nil_r. split; auto. split; auto. split; [apply incl_refl|split; [intros p []|intros e []]].
  - destruct (partly_add N P l [y] PL) as (P1 & PL1 & I1 & AD). cbv zeta.
    destruct (l_nodes (add_all eligible l [y]) y) as [n|] eqn:Q.
    + destruct (IH P1 (add_all eligible l [y]) (new ++ [pair_of a y; pair_of b y]) PL1 A C) as (l' & new' & P' & E & PL' & I' & W' & K').
      exists l', ([pair_of a y; pair_of b y] ++ new'), P'. split; [rewrite E, app_assoc; auto|]. split; auto. split; [eapply incl_tran; eauto|].
      assert (Y : In y (N ++ P')).
      { apply (app_incl_r N P1 P' I'). apply in_app_iff. apply (partly_nodes N P1 _ y PL1). congruence. }
      split.
      * apply within_app; auto. change [pair_of a y; pair_of b y] with ([pair_of a y] ++ [pair_of b y]). apply within_app; apply within_pair; auto; apply in_app_iff; auto.
      * intros e [<-|EY] EE; [split; auto; split; [left; auto|right; left; auto]|]. destruct (K' e EY EE) as (K1 & K2 & K3). split; auto. split; right; right; auto.
    + destruct (IH P1 (add_all eligible l [y]) new PL1 A C) as (l' & new' & P' & E & PL' & I' & W' & K').
      exists l', new', P'. split; auto. split; auto. split; [eapply incl_tran; eauto|]. split; auto. intros e [<-|EY] EE; auto. exfalso.
      assert (In y N \/ In y P1) as H by (apply AD; [left; auto|auto]). apply (partly_nodes N P1 _ y PL1) in H. congruence.
Qed.
Lemma follow_spec : forall N P l visited new p Q, partly N P l -> In (fst p) N -> In (snd p) N -> closed (N ++ P) visited (visited ++ Q ++ new) ->
  exists l' visited' new' P', follow eligible (l, visited, new) p = Ok (l', visited', new ++ new') /\ partly N P' l' /\ incl P P' /\ within_nodes (N ++ P') new' /\
  incl visited visited' /\ (new' <> [] -> ~ In p visited) /\ In p visited' /\ incl visited' (p :: visited) /\ closed (N ++ P') visited' (visited' ++ Q ++ (new ++ new')).
Proof.
  intros N P l visited new [a b] QQ PL A C CL. cbn [fst snd] in *. unfold follow. destruct (mem_pair (a, b) visited) eqn:M.
  - exists l, visited, [], P. rewrite app_nil_r. split; auto. split; auto. split; [apply incl_refl|]. split; [intros q []|]. split; [apply incl_refl|]. split; [congruence|]. split; [apply mem_pair_in; auto|]. split; [apply incl_tl, incl_refl|auto].
  - assert (NV : ~ In (a, b) visited) by (rewrite <- mem_pair_in; congruence). rewrite (partly_value N P l a PL A), (partly_value N P l b PL C). cbn [bind value set_value n_value].
    assert (IW : forall x y : list (lc * lc), incl (visited ++ QQ ++ x) (((a, b) :: visited) ++ QQ ++ (x ++ y))).
    { intros x y q X. rewrite !in_app_iff in *. cbn [In]. tauto. }
    destruct (Bool.eqb _ _) eqn:EB.
    + exists l, ((a, b) :: visited), [], P. rewrite app_nil_r at 1. split; auto. split; auto. split; [apply incl_refl|]. split; [intros q []|]. split; [apply incl_tl, incl_refl|]. split; [auto|]. split; [left; auto|]. split; [apply incl_refl|].
      intros a' b' e [X|X] NE; [injection X as <- <-; apply eqb_prop in EB; congruence|]. apply (closed_incl _ (N ++ P) _ _ _ CL (incl_refl _) (IW new []) a' b' e X NE).
    + cbv zeta. match goal with |- context [add_common eligible l a b ?ys new] => destruct (add_common_spec N a b ys P l new PL A C) as (l' & new' & P' & E & PL' & I' & W' & K') end.
      rewrite E. exists l', ((a, b) :: visited), new', P'. split; auto. split; auto. split; auto. split; auto. split; [apply incl_tl, incl_refl|]. split; [auto|]. split; [left; auto|]. split; [apply incl_refl|].
      intros a' b' e [X|X] NE A1 A2 EE.
      * injection X as <- <-. destruct (K' e) as (K1 & K2 & K3); auto.
        { apply filter_In. split; [apply sort_lc_in, knn_in, distance_1; auto|]. apply mem_in, sort_lc_in, knn_in, distance_1. auto. }
        split; auto. split; rewrite !in_app_iff; auto.
      * apply (closed_incl _ (N ++ P') _ _ _ CL (app_incl_r N P P' I') (IW new new') a' b' e X NE A1 A2 EE).
Qed.
Lemma follows_spec : forall N Q ps P l visited new, partly N P l -> within_nodes N ps -> closed (N ++ P) visited (visited ++ Q ++ new) ->
  exists l' visited' new' P', follows eligible (l, visited, new) ps = Ok (l', visited', new ++ new') /\ partly N P' l' /\ incl P P' /\ within_nodes (N ++ P') new' /\
  incl visited visited' /\ (new' <> [] -> exists p, In p ps /\ ~ In p visited /\ In p visited') /\ incl ps visited' /\ incl visited' (visited ++ ps) /\ closed (N ++ P') visited' (visited' ++ Q ++ (new ++ new')).
Proof.
  intros N Q. induction ps as [|p ps IH]; intros P l visited new PL W CL; cbn [follows].
  - exists l, visited, [], P. rewrite app_nil_r. split; auto. split; auto. split; [apply incl_refl|]. split; [intros q []|]. split; [apply incl_refl|]. split; [congruence|]. split; [intros q []|]. split; [rewrite app_nil_r; apply incl_refl|auto].
  - destruct (W p (or_introl eq_refl)) as [A C]. destruct (follow_spec N P l visited new p Q PL A C CL) as (l1 & v1 & n1 & P1 & E1 & PL1 & I1 & W1 & V1 & N1 & IP & IU & CL1). rewrite E1. cbn [bind].
    destruct (IH P1 l1 v1 (new ++ n1) PL1) as (l2 & v2 & n2 & P2 & E2 & PL2 & I2 & W2 & V2 & N2 & IP2 & IU2 & CL2); [intros q X; apply W; right; auto|auto|].
    exists l2, v2, (n1 ++ n2), P2. split; [rewrite E2, app_assoc; auto|]. split; auto. split; [eapply incl_tran; eauto|].
    split; [apply within_app; auto; eapply within_incl; [exact W1|apply app_incl_r; auto]|]. split; [eapply incl_tran; eauto|]. split; [|split; [intros q [<-|X]; auto|split; [|rewrite (app_assoc new n1 n2); exact CL2]]].
    2: { intros q X. apply IU2, in_app_iff in X. apply in_app_iff. destruct X as [X|X]; [apply IU in X; destruct X as [<-|X]; [right; left; auto|left; auto]|right; right; auto]. }
    intros NE. destruct n1 as [|q n1].
    + destruct (N2 NE) as (q & Q1 & Q2 & Q3). exists q. split; [right; auto|]. split; auto.
    + exists p. split; [left; auto|]. split; [apply N1; discriminate|apply V2; auto].
Qed.
Definition unvisited (visited : list (lc * lc)) : nat := length (filter (fun q => negb (mem_pair q visited)) (list_prod B B)).
Lemma filter_less : forall (A : Type) (p q : A -> bool) m, (forall x, p x = true -> q x = true) ->
  length (filter p m) <= length (filter q m) /\ forall x, In x m -> p x = false -> q x = true -> length (filter p m) < length (filter q m).
Proof.
  intros A p q m H. induction m as [|a m [IH1 IH2]]; cbn; [split; [lia|intros x []]|]. pose proof (H a) as HA. split.
  - destruct (p a); [rewrite HA by auto; cbn; lia|]. destruct (q a); cbn; lia.
  - intros x [<-|X] PX QX.
    + rewrite PX, QX. cbn. lia.
    + specialize (IH2 x X PX QX). destruct (p a); [rewrite HA by auto; cbn; lia|]. destruct (q a); cbn; lia.
Qed.
Lemma unvisited_less : forall v w p, incl v w -> In p (list_prod B B) -> ~ In p v -> In p w -> unvisited w < unvisited v.
Proof.
  intros v w p I0 IP NV IW. unfold unvisited. refine (proj2 (filter_less _ _ _ (list_prod B B) _) p IP _ _).
  - intros q Q. apply negb_true_iff in Q. apply negb_true_iff. destruct (mem_pair q v) eqn:M; auto. apply mem_pair_in, I0, mem_pair_in in M. congruence.
  - apply negb_false_iff, mem_pair_in. auto.
  - apply negb_true_iff. destruct (mem_pair p v) eqn:M; auto. apply mem_pair_in in M. tauto.
Qed.
Lemma spread_spec : forall fuel N l visited pairs, sampled field N l -> (forall x, In x N -> eligible x = true) -> within_nodes N pairs -> unvisited visited + 2 <= fuel ->
  within_nodes N visited -> closed N visited (visited ++ pairs) ->
  exists l' N' V, spread eligible f fuel l visited pairs = Ok (Some (l', None)) /\ sampled field N' l' /\ incl N N' /\ (forall x, In x N' -> eligible x = true) /\
  incl visited V /\ incl pairs V /\ within_nodes N' V /\ closed N' V V.
Proof.
  induction fuel as [|fuel IH]; intros N l visited pairs S0 E W M WV CL; [lia|].
  assert (BASE : forall m l' N', pairs = [] -> l' = l -> N' = N -> spread eligible f m l visited pairs = Ok (Some (l', None))) by (intros m l' N' -> -> _; destruct m; auto).
  destruct pairs as [|p ps]; cbn [spread].
  { exists l, N, visited. split; auto. split; auto. split; [apply incl_refl|]. split; auto. split; [apply incl_refl|]. split; [intros q []|]. split; auto. rewrite app_nil_r in CL. auto. }
  clear BASE. destruct (follows_spec N (p :: ps) (p :: ps) [] l visited [] (partly_start N l S0 E) W) as (l1 & v1 & n1 & P1 & E1 & PL1 & I1 & W1 & V1 & N1 & IP1 & IU1 & CL1).
  { rewrite !app_nil_r. auto. }
  rewrite E1. cbn [bind app].
  destruct (partly_evaluate N P1 l1 PL1) as (l2 & E2 & S2 & EL2). rewrite E2. cbn [bind]. assert (IN : incl N (N ++ P1)) by (intros x X; apply in_app_iff; auto).
  assert (CL2 : closed (N ++ P1) v1 (v1 ++ n1)).
  { eapply closed_incl; [exact CL1|apply incl_refl|]. intros q X. rewrite !in_app_iff in *. destruct X as [X|[X|[[]|X]]]; auto. }
  assert (WV1 : within_nodes (N ++ P1) v1).
  { intros q X. apply IU1, in_app_iff in X. destruct X as [H|H]; [apply (within_incl N (N ++ P1) visited WV IN q H)|]. apply (within_incl N (N ++ P1) (p :: ps) W IN q H). }
  destruct n1 as [|q n1].
  - exists l2, (N ++ P1), v1. split; [destruct fuel; auto|]. split; auto. split; auto. split; auto. split; auto. split; auto. split; auto. rewrite app_nil_r in CL2. auto.
  - destruct N1 as (r & R1 & R2 & R3); [discriminate|]. destruct (W r R1) as [RA RB].
    assert (unvisited v1 < unvisited visited) by (apply (unvisited_less visited v1 r); auto; destruct r; apply in_prod; apply HB, E; auto).
    destruct (IH (N ++ P1) l2 v1 (q :: n1) S2 EL2 W1) as (l3 & N3 & V3 & E3 & S3 & I3 & EL3 & IV3 & IQ3 & WV3 & CL3); auto; [lia|].
    exists l3, N3, V3. split; auto. split; auto. split; [eapply incl_tran; eauto|]. split; auto. split; [eapply incl_tran; eauto|]. split; [eapply incl_tran; eauto|auto].
Qed.
Lemma linked_closed : forall N V a b, within_nodes N V -> closed N V V -> neg (field a) <> neg (field b) -> In (pair_of a b) V -> forall c d, linked eligible field a b c d -> In c N /\ In d N.
Proof.
  intros N V a b W CL NE IV c d H.
  assert (K : neg (field c) <> neg (field d) /\ (In (c, d) V \/ In (d, c) V)).
  { induction H as [|c d H [IH1 IH2]|c d e H [IH1 IH2] A1 A2 EL NE'].
    - split; auto. destruct (pair_of_cases a b) as [Q|Q]; rewrite Q in IV; auto.
    - split; [congruence|tauto].
    - split; auto. assert (IP : In (pair_of c e) V) by (destruct IH2 as [IH2|IH2]; [exact (proj1 (proj2 (CL c d e IH2 IH1 A1 A2 EL)))|exact (proj2 (proj2 (CL d c e IH2 (not_eq_sym IH1) A2 A1 EL)))]).
      destruct (pair_of_cases c e) as [Q|Q]; rewrite Q in IP; auto. }
  destruct K as [_ [K|K]]; apply W in K; cbn in K; tauto.
Qed.

(** ** From the seeds to the mesh *)
Lemma knn_adjacent : forall x y, interior eligible x -> adjacent x y -> In y (knn_nodes eligible x 1).
Proof. intros x y [X1 X2] Y. apply knn_in. apply distance_1. auto. Qed.
Lemma fold_spec : forall (kn : lc -> list lc), (forall x y, interior eligible x -> adjacent x y -> In y (kn x)) ->
  forall xs P l, partly [] P l -> (forall x, In x xs -> interior eligible x) ->
  exists P', partly [] P' (fold_left (fun l x => add_all eligible (add_all eligible l [x]) (kn x)) xs l) /\ incl P P' /\ forall x, In x xs -> In x P' /\ forall y, adjacent x y -> In y P'.
Proof.
  intros kn KN. induction xs as [|x xs IH]; intros P l PL I0; cbn [fold_left].
  - exists P. split; auto. split; [apply incl_refl|intros x []].
  - pose proof (I0 x (or_introl eq_refl)) as X0. pose proof X0 as [X1 X2]. destruct (partly_add [] P l [x] PL) as (P1 & PL1 & I1 & A1). destruct (partly_add [] P1 _ (kn x) PL1) as (P2 & PL2 & I2 & A2).
    destruct (IH P2 _ PL2) as (P3 & PL3 & I3 & A3); [intros y Y; apply I0; right; auto|]. exists P3. split; [exact PL3|]. split; [eapply incl_tran; [exact I1|eapply incl_tran; eauto]|].
    intros z [<-|Z]; [|apply A3; auto]. split.
    + apply I3, I2. destruct (A1 x) as [[]|Q]; auto. left. auto.
    + intros y Y. apply I3. destruct (A2 y) as [[]|Q]; auto.
Qed.
Lemma plant_spec : forall xs P l, partly [] P l -> (forall x, In x xs -> interior eligible x) ->
  exists P', partly [] P' (plant eligible l xs) /\ incl P P' /\ forall x, In x xs -> In x P' /\ forall y, adjacent x y -> In y P'.
Proof.
  intros xs P l H I0. unfold plant. exact (fold_spec (fun x => knn_nodes eligible x 1) knn_adjacent xs P l H I0).
Qed.
Lemma measure_bound : forall s, measure s <= length B * 11 + 11.
Proof.
  intros s. unfold measure, below. assert (length (filter (smaller (s_lc s)) B) <= length B); [|lia]. clear. induction B as [|a m IH]; cbn; auto. destruct (smaller (s_lc s) a); cbn; lia.
Qed.
Lemma unvisited_bound : forall v, unvisited v <= length B * length B.
Proof.
  intros v. unfold unvisited. rewrite <- prod_length. generalize (list_prod B B). intros m. clear. induction m as [|a m IH]; cbn; auto. destruct (negb (mem_pair a v)); cbn; lia.
Qed.
Definition enough (fuel : nat) : Prop := length B * 11 + 11 < fuel /\ length B * length B + 2 <= fuel.
Lemma sample_seeds_spec : forall fuel xs, enough fuel -> xs <> [] -> (forall x, In x xs -> interior eligible x) ->
  exists l N, sample_seeds eligible pos descent f fuel cleared xs = Ok (Some (l, None)) /\ sampled field N l /\ (forall x, In x N -> eligible x = true) /\
  forall x, In x xs -> In x N /\ (forall y, adjacent x y -> In y N) /\
    exists z, descends eligible field x z /\ In z N /\ (forall y, adjacent z y -> In y N) /\ (at_surface eligible field z \/ stuck eligible field z) /\
      (at_surface eligible field z -> exists y, adjacent z y /\ neg (field z) <> neg (field y) /\ forall c d, linked eligible field z y c d -> In c N /\ In d N).
Proof.
  intros fuel xs [F1 F2] NE I0. unfold sample_seeds. destruct xs as [|x0 xs0]; [congruence|]. clear NE. set (xs := x0 :: xs0) in *.
  destruct (plant_spec xs [] cleared) as (P & PL & _ & A).
  { apply partly_start; [apply sampled_cleared|intros x []]. }
  { auto. }
  destruct (partly_evaluate [] P _ PL) as (l1 & E1 & S1 & EL1). rewrite E1. cbn [bind app] in *.
  destruct (search_spec fuel P l1 [] (map (fun x => Seed x (Some (0, 0, 0)%R) 1) (unique (sort_lc xs))) S1 EL1) as (l2 & ps & N2 & E2 & S2 & I2 & EL2 & W2 & _ & D2).
  { intros s X. apply in_map_iff in X. destruct X as (x & <- & X). rewrite unique_in, sort_lc_in in X. destruct (A x X) as [A1 A2]. unfold good. cbn [s_lc s_k].
    split; auto. split; auto. split; [lia|]. split; auto. split; [intros y Y; apply distance_1 in Y; apply A2; tauto|]. split; [intros j y L; lia|lia]. }
  { intros s _. pose proof (measure_bound s). lia. }
  { intros p []. }
  rewrite E2. cbn [bind]. destruct (spread_spec fuel N2 l2 [] ps S2 EL2 W2) as (l3 & N3 & V & E3 & S3 & I3 & EL3 & _ & IV & WV & CL); [pose proof (unvisited_bound []); lia|intros p []|intros a b e []|].
  exists l3, N3. split; auto. split; auto. split; auto. intros x X. destruct (A x X) as [A1 A2]. split; [apply I3, I2; auto|]. split; [intros y Y; apply I3, I2; auto|].
  assert (EN : ended N2 ps x).
  { apply (D2 (Seed x (Some (0, 0, 0)%R) 1)). apply in_map_iff. exists x. split; auto. rewrite unique_in, sort_lc_in. auto. }
  destruct EN as (z & Z1 & Z2 & Z3 & Z4 & Z5). exists z. split; auto. split; auto. split; auto. split; auto. intros Q. destruct (Z5 Q) as (y & Y1 & Y2 & Y3). exists y. split; auto. split; auto.
  apply (linked_closed N3 V z y WV CL Y2). auto.
Qed.
Lemma linked_nodes : forall N a b, (forall x y, edge_of field N x y -> done eligible N x \/ done eligible N y) -> edge_of field N a b -> forall c d, linked eligible field a b c d -> edge_of field N c d.
Proof.
  intros N a b D E c d H. induction H as [|c d H IH|c d e H IH A1 A2 EL NE]; auto; [apply edge_sym; auto|].
  destruct IH as (C1 & C2 & C3 & C4). split; auto. split; [|split; [apply adjacent_iff; auto|auto]].
  destruct (D c d) as [Q|Q]; [split; auto| |].
  - apply adjacent_iff in A1. destruct A1 as (i & L & ->). apply Q; auto.
  - apply adjacent_iff in A2. destruct A2 as (i & L & ->). apply Q; auto.
Qed.
Theorem seeds_mesh : forall order fuel xs, orders eligible order -> enough fuel -> xs <> [] -> (forall x, In x xs -> interior eligible x) ->
  exists l (N : lc -> Prop), add_nodes_from_seed_points eligible pos descent f fuel order cleared xs = Ok (Some (l, None)) /\
  (forall x, N x -> eligible x = true) /\
  one_vertex_per_edge N (fun x => neg (field x)) (l_vertices l) /\ Forall (at_crossing field) (l_vertices l) /\
  (forall x, In x xs -> N x /\ (forall y, adjacent x y -> N y) /\
     exists z, descends eligible field x z /\ N z /\ (forall y, adjacent z y -> N y) /\ (at_surface eligible field z \/ stuck eligible field z)) /\
  (forall a b c d, crosses N (fun x => neg (field x)) a b -> linked eligible field a b c d -> exists v, In v (l_vertices l) /\ joins v c d) /\
  forall keys, enumerates keys l -> exists fs, get_mesh l keys = Ok fs /\ watertight (fun x => eligible x = true) (l_vertices l) fs /\
    cuts_all (fun x => eligible x = true) (fun x => neg (field x)) (l_vertices l) fs /\ proper_faces (fun x => eligible x = true) (l_vertices l) fs.
Proof.
  intros order fuel xs OR FU NE I0. destruct (sample_seeds_spec fuel xs FU NE I0) as (l1 & N1 & E1 & S1 & EL1 & A1). unfold add_nodes_from_seed_points. rewrite E1. cbn [bind].
  assert (NN1 : forall x, l_nodes l1 x <> None <-> In x N1) by apply S1. destruct (OR l1 N1 NN1 EL1) as [K1 KK1].
  destruct (complete_surface_spec field f eligible B F HB fuel N1 l1 (order l1) S1) as (l2 & N2 & E2 & S2 & I2 & EL2 & D2).
  { destruct FU. lia. }
  { intros x. rewrite KK1. apply NN1. }
  { auto. }
  rewrite E2. cbn [bind]. assert (NN2 : forall x, l_nodes l2 x <> None <-> In x N2) by apply S2. destruct (OR l2 N2 NN2 EL2) as [K2 KK2].
  destruct (tracked_spec field N2 l2 (order l2) S2 K2) as (l3 & l4 & E3 & E4 & C); [intros x; rewrite KK2; apply NN2|]. rewrite E3. cbn [bind]. rewrite E4. cbn [bind].
  destruct (complete_one_vertex _ _ _ C) as [O _]. exists l4, (fun x => In x N2). split; auto. split; auto. split; [exact O|]. split; [apply C|]. split; [|split].
  - intros x X. destruct (A1 x X) as (X1 & X2 & X3). split; [apply I2; auto|]. split; [intros y Y; apply I2; auto|]. destruct X3 as (z & Z1 & Z2 & Z3 & Z4 & _). exists z. exact (conj Z1 (conj (I2 z Z2) (conj (fun y Y => I2 y (Z3 y Y)) Z4))).
  - intros a b c d (C1 & C2 & C3 & C4) L. assert (E : edge_of field N2 a b) by (split; auto; split; auto; split; [apply adjacent_iff; auto|auto]).
    pose proof (linked_nodes N2 a b D2 E c d L) as (Q1 & Q2 & Q3 & Q4). destruct O as [_ O]. destruct (O c d) as (i & (v & V & J) & _).
    { split; auto. split; auto. split; [apply adjacent_iff; auto|auto]. }
    exists v. split; auto. eapply nth_error_In; eauto.
  - intros keys4 K4. destruct (complete_mesh _ _ _ _ C K4) as (fs & G & (W & CA & PF) & _). exists fs. split; auto.
    split; [eapply watertight_eligible; eauto|]. split.
    + intros S u SS EL (v & V & A & B'). apply CA; auto; [|exists v; auto].
      apply (filled_simplex field eligible N2 S (fst (ends v)) (snd (ends v))); auto. apply O. eapply nth_error_In; eauto.
    + intros fc FC. destruct (PF fc FC) as (P1 & P2 & S & P3 & P4 & P5). split; auto. split; auto. exists S. split; auto. split; auto.
      rewrite Forall_forall in *. auto.
Qed.
End Run.
Theorem seeds_component : forall eligible pos descent field f (B : list lc) order fuel xs,
  (forall ys, f ys = Ok (map field ys)) -> (forall x, eligible x = true -> In x B) -> orders eligible order ->
  length B * 11 + 11 < fuel -> length B * length B + 2 <= fuel -> (forall x, In x xs -> interior eligible x) ->
  forall x y, In x xs -> adjacent x y -> neg (field x) <> neg (field y) ->
  exists l, add_nodes_from_seed_points eligible pos descent f fuel order cleared xs = Ok (Some (l, None)) /\
  forall c d, linked eligible field x y c d -> exists v, In v (l_vertices l) /\ joins v c d.
Proof.
  intros eligible pos descent field f B order fuel xs F HB O F1 F2 I0 x y X A NE.
  destruct (seeds_mesh eligible pos descent field f B F HB order fuel xs O (conj F1 F2)) as (l & N & E & _ & _ & _ & S & L & _); auto; [intros ->; destruct X|].
  exists l. split; auto. destruct (S x X) as (S1 & S2 & _). intros c d. apply L. split; auto.
Qed.
