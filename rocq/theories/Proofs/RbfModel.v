From Coq Require Import List Arith ZArith Bool String Lia.
From Verif Require Import Model.Outcome Model.RbfModel Spec.RbfModel.
Import ListNotations.

Section Proofs.

Context {D : Type}.
Variable nonneg : D -> bool.
Variables (dzero done dinf : D).
Notation rbf := (rbf D).
Notation model := (model D).

Lemma fold_app : forall {A B} (f : A -> list B) l acc,
  fold_left (fun ps r => ps ++ f r) l acc = acc ++ flat_map f l.
Proof.
  induction l; intros acc; cbn; [rewrite app_nil_r; auto|].
  rewrite IHl, <- app_assoc. auto.
Qed.

Lemma num_parameters_eq : forall m : model, num_parameters m = 1 + 2 * List.length (rbfs m).
Proof.
  intros m. unfold num_parameters.
  assert (forall l acc, fold_left (fun np (r : rbf) => np + num_parameters1 (rkind r)) l acc
                        = acc + 2 * List.length l) as H.
  { induction l; intros acc; cbn; [lia|]. rewrite IHl. unfold num_parameters1. lia. }
  rewrite H. reflexivity.
Qed.

Lemma flat_map_length_two : forall {A B} (f : A -> list B) l,
  Forall (fun x => List.length (f x) = 2) l -> List.length (flat_map f l) = 2 * List.length l.
Proof.
  induction l; intros H; cbn; auto. inversion H; subst. rewrite app_length, IHl by auto. lia.
Qed.

Lemma parameters_eq : forall m : model, parameters m = nugget m :: flat_map (rparams (D:=D)) (rbfs m).
Proof. intros. unfold parameters. rewrite fold_app. reflexivity. Qed.

Lemma parameters_length : forall m : model, valid_model m ->
  List.length (parameters m) = num_parameters m.
Proof.
  intros m V. rewrite parameters_eq, num_parameters_eq. cbn.
  rewrite flat_map_length_two; auto.
Qed.

Lemma set_parameters1_two : forall (r : rbf) ps, List.length ps = 2 ->
  set_parameters1 dzero done r ps = Ok (mk_rbf (rkind r) ps).
Proof.
  intros r ps L. destruct ps as [|a [|b [|]]]; try discriminate.
  unfold set_parameters1, base_set_parameters. destruct (is_poly (rkind r)); reflexivity.
Qed.

Lemma make_valid : forall k ps r, make dzero done k ps = Ok r -> valid_rbf r /\ rkind r = k.
Proof.
  intros k ps r H. unfold make, set_parameters1, base_set_parameters, num_parameters1, valid_rbf in *.
  cbn [rkind] in H.
  destruct ps as [|a [|b [|]]]; cbn in H; destruct (is_poly k); cbn in H; try discriminate;
    injection H as <-; auto.
Qed.

Lemma make_spec : forall k ps, make dzero done k ps =
  match constructed_parameters dzero done k ps with
  | Some ps' => Ok (mk_rbf k ps') | None => Throw ExInvalidArgument end.
Proof. intros [] [|a [|b [|c ps]]]; reflexivity. Qed.

(** The list of two-element slices. *)
Lemma set_rbfs_spec : forall todo dn ps i,
  List.length ps = i + 2 * List.length todo ->
  exists rs, set_rbfs dzero done ps i dn todo = (Ok tt, rev dn ++ rs) /\
             map (rkind (D:=D)) rs = map (rkind (D:=D)) todo /\ Forall valid_rbf rs /\
             flat_map (rparams (D:=D)) rs = skipn i ps.
Proof.
  induction todo as [|r todo IH]; intros dn ps i L; cbn [set_rbfs].
  - exists []. rewrite app_nil_r. repeat split; auto. cbn in L. rewrite skipn_all2 by lia. auto.
  - cbn [List.length] in L. unfold num_parameters1.
    destruct (Nat.ltb_spec (List.length ps) (i + 2)); [lia|].
    assert (List.length (firstn 2 (skipn i ps)) = 2) as L2
      by (rewrite firstn_length, skipn_length; lia).
    rewrite set_parameters1_two by auto.
    destruct (IH (mk_rbf (rkind r) (firstn 2 (skipn i ps)) :: dn) ps (i + 2)) as (rs & E & K & V & F).
    { lia. }
    exists (mk_rbf (rkind r) (firstn 2 (skipn i ps)) :: rs). rewrite E. split; [|split; [|split]].
    + cbn. rewrite <- app_assoc. reflexivity.
    + cbn. rewrite K. reflexivity.
    + constructor; auto.
    + cbn [flat_map rparams]. rewrite F.
      replace (skipn (i + 2) ps) with (skipn 2 (skipn i ps)); [apply firstn_skipn|].
      clear. revert ps. induction i; intros ps; [reflexivity|].
      destruct ps; [reflexivity|]. exact (IHi ps).
Qed.

Lemma set_parameters_spec : forall (m : model) ps out m',
  set_parameters nonneg dzero done m ps = (out, m') ->
  (exists e, out = Throw e /\ m' = m /\
     (List.length ps <> num_parameters m \/ exists n ps', ps = n :: ps' /\ nonneg n = false)) \/
  (out = Ok tt /\ parameters m' = ps /\ poly_degree m' = poly_degree m /\
   map (rkind (D:=D)) (rbfs m') = map (rkind (D:=D)) (rbfs m) /\ valid_model m').
Proof.
  intros m ps out m' H. unfold set_parameters in H.
  destruct (Nat.eqb_spec (List.length ps) (num_parameters m)) as [L|L]; cbn [negb] in H.
  2:{ injection H as <- <-. left. eexists; eauto. }
  destruct ps as [|n ps']; cbn [nth_error] in H.
  { rewrite num_parameters_eq in L. discriminate. }
  unfold set_nugget in H. destruct (nonneg n) eqn:N; cbn [negb] in H.
  2:{ injection H as <- <-. left. eexists; eauto 8. }
  cbn [rbfs poly_degree nugget] in H.
  rewrite num_parameters_eq in L.
  destruct (set_rbfs_spec (rbfs m) [] (n :: ps') 1 L) as (rs & E & K & V & F).
  rewrite E in H. cbn in H. injection H as <- <-. right. repeat split; auto.
  rewrite parameters_eq. cbn [nugget rbfs]. rewrite F. reflexivity.
Qed.

Lemma set_parameters_current : forall m : model, valid_model m -> nonneg (nugget m) = true ->
  set_parameters nonneg dzero done m (parameters m) = (Ok tt, m).
Proof.
  intros m V N.
  destruct (set_parameters nonneg dzero done m (parameters m)) as [out m'] eqn:S.
  apply set_parameters_spec in S.
  destruct S as [(e & _ & _ & [L|(n & ps' & P & N')])|(-> & P & Dg & K & V')].
  - rewrite parameters_length in L by auto. congruence.
  - rewrite parameters_eq in P. injection P as <- <-. congruence.
  - f_equal. rewrite !parameters_eq in P. injection P as P1 P2.
    destruct m as [rs d n], m' as [rs' d' n']. cbn [rbfs poly_degree nugget] in *. subst.
    f_equal. clear N. revert rs V K P2. unfold valid_model in *. cbn in *.
    induction rs' as [|[k' p'] rs' IH]; intros [|[k p] rs] V K P2; cbn in *; try discriminate; auto.
    inversion V; inversion V'; subst. unfold valid_rbf in *. cbn in *.
    injection K as -> K. destruct p as [|a [|b [|]]]; try discriminate.
    destruct p' as [|a' [|b' [|]]]; try discriminate. cbn in P2. injection P2 as -> -> P2.
    f_equal. apply IH; auto.
Qed.

Lemma names_bounds_lengths : forall m : model,
  List.length (parameter_names m) = num_parameters m /\
  List.length (parameter_lower_bounds dzero m) = num_parameters m /\
  List.length (parameter_upper_bounds dinf m) = num_parameters m.
Proof.
  intros m. unfold parameter_names, parameter_lower_bounds, parameter_upper_bounds.
  rewrite !fold_app, !num_parameters_eq. cbn [app List.length].
  rewrite !flat_map_length_two; auto; apply Forall_forall; intros x _; auto.
  unfold names1. destruct (is_poly (rkind x)); auto.
Qed.

Lemma flat_map_nth_two : forall {A B} (f : A -> list B) l i r j,
  Forall (fun x => List.length (f x) = 2) l -> nth_error l i = Some r -> j < 2 ->
  nth_error (flat_map f l) (2 * i + j) = nth_error (f r) j.
Proof.
  induction l as [|x l IH]; intros i r j F N J; [destruct i; discriminate|].
  inversion F; subst. cbn [flat_map]. destruct i; cbn in N.
  - injection N as ->. cbn. rewrite nth_error_app1 by lia. reflexivity.
  - rewrite nth_error_app2 by lia. rewrite H1. replace (2 * S i + j - 2) with (2 * i + j) by lia.
    apply IH; auto.
Qed.

(** Same order: parameter [1 + 2 i + j] is the [j]-th of RBF [i], in all four lists. *)
Lemma same_order : forall (m : model) i r j, valid_model m -> nth_error (rbfs m) i = Some r -> j < 2 ->
  nth_error (parameters m) (1 + 2 * i + j) = nth_error (rparams r) j /\
  nth_error (parameter_names m) (1 + 2 * i + j) = nth_error (names1 (rkind r)) j /\
  nth_error (parameter_lower_bounds dzero m) (1 + 2 * i + j) = nth_error (lower1 dzero (rkind r)) j /\
  nth_error (parameter_upper_bounds dinf m) (1 + 2 * i + j) = nth_error (upper1 dinf (rkind r)) j.
Proof.
  intros m i r j V N J.
  unfold parameters, parameter_names, parameter_lower_bounds, parameter_upper_bounds.
  rewrite !fold_app. cbn [app plus nth_error].
  change (i + (i + 0)) with (2 * i).
  repeat split.
  - apply flat_map_nth_two; auto.
  - apply (flat_map_nth_two (fun r : rbf => names1 (rkind r))); auto.
    apply Forall_forall; intros x _. unfold names1. destruct (is_poly (rkind x)); auto.
  - apply (flat_map_nth_two (fun r : rbf => lower1 dzero (rkind r))); auto.
    apply Forall_forall; intros x _; auto.
  - apply (flat_map_nth_two (fun r : rbf => upper1 dinf (rkind r))); auto.
    apply Forall_forall; intros x _; auto.
Qed.

End Proofs.

(** ** Construction *)
Section Construction.

Context {D : Type}.
Variable dzero : D.
Notation rbf := (rbf D).


Lemma cpd_order1_math : forall k, cpd_order1 k = math_order k.
Proof. intros []; reflexivity. Qed.

Lemma cpd_order_spec : forall (rs : list rbf) deg,
  (cpd_order rs - 1 <= deg)%Z <-> high_enough rs deg.
Proof.
  intros rs deg. unfold cpd_order, high_enough.
  assert (forall l acc, (fold_left (fun order (r : rbf) => Z.max order (cpd_order1 (rkind r))) l acc
            - 1 <= deg)%Z <-> (acc - 1 <= deg)%Z /\
            Forall (fun r => math_order (rkind r) - 1 <= deg)%Z l) as H.
  { induction l as [|r l IH]; intros acc; cbn [fold_left].
    - split; [auto|tauto].
    - rewrite IH, Forall_cons_iff, <- (cpd_order1_math (rkind r)).
      split; [intros [A B]|intros (A & B & C)]; repeat split; auto; lia. }
  rewrite H. reflexivity.
Qed.

Lemma cpd_order_max : forall rs : list rbf, (cpd_order rs <= 3)%Z.
Proof.
  intros rs. assert (cpd_order rs - 1 <= 2)%Z; [|lia].
  apply cpd_order_spec. split; [lia|]. apply Forall_forall. intros r _.
  destruct (rkind r); cbn; lia.
Qed.

Lemma construct_ok : forall (rs : list rbf) deg,
  rs <> [] -> (high_enough rs deg /\ deg <= 2)%Z ->
  construct dzero rs deg = Ok (mk_model rs deg dzero).
Proof.
  intros rs deg N [H L]. apply cpd_order_spec in H. destruct rs as [|r rs]; [congruence|].
  unfold construct, kMinRequiredPolyDegree.
  destruct (Z.eqb_spec deg (-2)).
  - subst. assert (-1 <= -2)%Z; [|lia].
    apply cpd_order_spec in H. destruct H. lia.
  - destruct (Z.leb_spec (cpd_order (r :: rs) - 1) deg); [|lia].
    destruct (Z.leb_spec deg 2); [reflexivity|lia].
Qed.

Lemma construct_default : forall rs : list rbf, rs <> [] ->
  exists deg, construct dzero rs kMinRequiredPolyDegree = Ok (mk_model rs deg dzero) /\
    high_enough rs deg /\ (deg <= 2)%Z /\ (forall deg', high_enough rs deg' -> deg <= deg')%Z.
Proof.
  intros rs N. destruct rs as [|r rs]; [congruence|].
  exists (cpd_order (r :: rs) - 1)%Z. split; [reflexivity|].
  split; [apply cpd_order_spec; lia|]. split; [pose proof (cpd_order_max (r :: rs)); lia|].
  intros deg' H. apply cpd_order_spec in H. auto.
Qed.

Lemma construct_reject : forall (rs : list rbf) deg,
  rs = [] \/ (deg <> kMinRequiredPolyDegree /\ ~ (high_enough rs deg /\ deg <= 2)%Z) ->
  construct dzero rs deg = Throw ExInvalidArgument.
Proof.
  intros rs deg [->|[N H]]; [reflexivity|].
  destruct rs as [|r rs]; [reflexivity|]. unfold construct.
  destruct (Z.eqb_spec deg kMinRequiredPolyDegree); [congruence|].
  destruct (Z.leb_spec (cpd_order (r :: rs) - 1) deg); cbn [andb]; auto.
  destruct (Z.leb_spec deg 2); auto. exfalso. apply H. split; auto. apply cpd_order_spec. auto.
Qed.

End Construction.
