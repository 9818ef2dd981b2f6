From Coq Require Import List Arith Bool Lia ZArith QArith Permutation.
From Verif Require Import Model.Outcome Model.MeshDefects Model.AbstractMesh Model.Triangulation
  Spec.VertexClusterer Spec.AbstractMesh Spec.Triangulation Proofs.MeshDefects Proofs.AbstractMesh Proofs.MeshEditing.
Import ListNotations.
Local Open Scope nat_scope.

(** ** Rings *)

Fixpoint path (l : list nat) : list (nat * nat) :=
  match l with x :: (y :: _) as l' => (x, y) :: path l' | _ => [] end.
Definition ring_edges (r : list nat) : list (nat * nat) := match r with [] => [] | x :: l => path (x :: l ++ [x]) end.
Definition rot (r r' : list nat) : Prop := exists l1 l2, r = l1 ++ l2 /\ r' = l2 ++ l1.

Lemma path_app : forall l1 x l2, path (l1 ++ x :: l2) = path (l1 ++ [x]) ++ path (x :: l2).
Proof.
  induction l1 as [|a l1 IH]; intros x l2; [reflexivity|]. destruct l1 as [|b l1]; [reflexivity|].
  cbn [app path] in *. rewrite IH. reflexivity.
Qed.
Lemma path_cons : forall x y l, path (x :: y :: l) = (x, y) :: path (y :: l). Proof. reflexivity. Qed.
Lemma path_in : forall l a b, In (a, b) (path l) -> In a l /\ In b l.
Proof.
  induction l as [|x l IH]; intros a b H; [destruct H|]. destruct l as [|y l]; [destruct H|]. rewrite path_cons in H.
  destruct H as [H|H]; [injection H as <- <-; cbn; auto|]. destruct (IH _ _ H). cbn in *. tauto.
Qed.
Lemma rot_edges : forall r r', rot r r' -> Permutation (ring_edges r) (ring_edges r').
Proof.
  intros r r' (l1 & l2 & -> & ->). destruct l1 as [|x l1]; [rewrite app_nil_r; auto|]. destruct l2 as [|y l2]; [rewrite app_nil_r; auto|].
  cbn [ring_edges app]. rewrite <- !app_assoc. cbn [app].
  change (x :: l1 ++ y :: l2 ++ [x]) with ((x :: l1) ++ y :: (l2 ++ [x])). change (y :: l2 ++ x :: l1 ++ [y]) with ((y :: l2) ++ x :: (l1 ++ [y])).
  rewrite (path_app (x :: l1)), (path_app (y :: l2)). apply Permutation_app_comm.
Qed.
Lemma rot_perm : forall r r', rot r r' -> Permutation r r'.
Proof. intros r r' (l1 & l2 & -> & ->). apply Permutation_app_comm. Qed.
Lemma rot_sym : forall r r', rot r r' -> rot r' r.
Proof. intros r r' (l1 & l2 & -> & ->). exists l2, l1. auto. Qed.

(** A ring vertex has one successor. *)
Lemma path_succ : forall l a b b', NoDup (removelast l) -> In (a, b) (path l) -> In (a, b') (path l) -> b = b'.
Proof.
  induction l as [|x l IH]; intros a b b' N H H'; [destruct H|]. destruct l as [|y l]; [destruct H|]. rewrite path_cons in H, H'.
  assert (forall c, In (x, c) (path (y :: l)) -> In x (removelast (y :: l))) as F.
  { clear. intros c. revert y. induction l as [|z l IH]; intros y H; [destruct H|]. rewrite path_cons in H.
    change (removelast (y :: z :: l)) with (y :: removelast (z :: l)). destruct H as [H|H]; [injection H as ->; left; auto|right; apply IH; auto]. }
  change (removelast (x :: y :: l)) with (x :: removelast (y :: l)) in N. inversion N as [|? ? N1 N2]; subst.
  destruct H as [H|H], H' as [H'|H'].
  - congruence.
  - injection H as -> ->. apply F in H'. tauto.
  - injection H' as -> ->. apply F in H. tauto.
  - eapply IH; eauto.
Qed.
Lemma ring_succ : forall r a b b', NoDup r -> In (a, b) (ring_edges r) -> In (a, b') (ring_edges r) -> b = b'.
Proof.
  intros [|x l] a b b' N; [intros []|]. apply path_succ. change (x :: l ++ [x]) with ((x :: l) ++ [x]). rewrite removelast_last. auto.
Qed.
Lemma ring_in : forall r a b, In (a, b) (ring_edges r) -> In a r /\ In b r.
Proof.
  intros [|x l] a b H; [destruct H|]. apply path_in in H. cbn in H. rewrite !in_app_iff in H. cbn in *. tauto.
Qed.

(** The vertex at place i with its neighbours. *)
Lemma ring_at : forall r i, 3 <= length r -> i < length r -> exists rest,
  let p := at_ r ((i + length r - 1) mod length r) in let c := at_ r i in let n := at_ r ((i + 1) mod length r) in
  rot r (p :: c :: n :: rest) /\ rot (firstn i r ++ skipn (S i) r) (p :: n :: rest).
Proof.
  intros r i L I. destruct i as [|i].
  - destruct r as [|c [|n r']]; [cbn in L; lia|cbn in L; lia|]. destruct (@exists_last _ r') as (rest & p & ->); [destruct r'; [cbn in L; lia|discriminate]|].
    exists rest. cbn zeta. assert (length (c :: n :: rest ++ [p]) = S (S (S (length rest)))) as -> by (cbn; rewrite app_length; cbn; lia).
    replace ((0 + S (S (S (length rest))) - 1) mod S (S (S (length rest)))) with (S (S (length rest))) by (rewrite Nat.mod_small; lia).
    rewrite (Nat.mod_small (0 + 1)) by lia. unfold at_. cbn [nth Nat.add firstn skipn app].
    rewrite app_nth2, Nat.sub_diag by lia. cbn [nth]. split.
    + exists (c :: n :: rest), [p]. auto.
    + exists (n :: rest), [p]. auto.
  - destruct (Nat.eq_dec (S (S i)) (length r)) as [EL|NL].
    + destruct (@exists_last _ r) as (r1 & c & ->); [intros ->; cbn in L; lia|]. rewrite app_length in EL, L |- *. cbn [length] in *.
      destruct (@exists_last _ r1) as (r2 & p & ->); [intros ->; cbn in L; lia|]. rewrite app_length in EL, L |- *. cbn [length] in *.
      destruct r2 as [|n rest]; [cbn in L; lia|]. exists rest. cbn zeta. cbn [length] in *.
      replace (S (length rest) + 1 + 1) with (S (S (S (length rest)))) in * by lia.
      assert (i = S (length rest)) by lia. subst i.
      assert ((S (S (length rest)) + S (S (S (length rest))) - 1) mod S (S (S (length rest))) = S (length rest)) as ->.
      { replace (S (S (length rest)) + S (S (S (length rest))) - 1) with (S (length rest) + 1 * S (S (S (length rest)))) by lia.
        rewrite Nat.mod_add by lia. apply Nat.mod_small. lia. }
      replace (S (S (length rest)) + 1) with (S (S (S (length rest)))) by lia. rewrite Nat.mod_same by lia.
      assert (((n :: rest) ++ [p]) ++ [c] = n :: rest ++ [p; c]) as -> by (rewrite <- app_assoc; reflexivity).
      unfold at_. cbn [nth].
      assert (nth (length rest) (rest ++ [p; c]) 0 = p) as -> by (rewrite app_nth2, Nat.sub_diag by lia; reflexivity).
      assert (nth (S (length rest)) (rest ++ [p; c]) 0 = c) as ->.
      { rewrite app_nth2 by lia. replace (S (length rest) - length rest) with 1 by lia. reflexivity. }
      split.
      * exists (n :: rest), [p; c]. auto.
      * exists (n :: rest), [p]. split; [|reflexivity]. rewrite skipn_all2 by (cbn; rewrite app_length; cbn; lia). rewrite app_nil_r.
        change (n :: rest ++ [p; c]) with ((n :: rest) ++ [p; c]). rewrite firstn_app. cbn [length].
        replace (S (S (length rest)) - S (length rest)) with 1 by lia. rewrite firstn_all2 by (cbn; lia). reflexivity.
    + (* not the last *)
      destruct (nth_split r 0 I) as (l1 & l2 & E & L1). set (c := nth (S i) r 0) in *.
      destruct (@exists_last _ l1) as (l1' & p & ->); [intros ->; cbn in L1; lia|]. rewrite app_length in L1. cbn [length] in L1.
      assert (length l1' = i) as L1' by lia.
      destruct l2 as [|n l2]; [rewrite E, !app_length in NL; cbn in NL; lia|].
      exists (l2 ++ l1'). cbn zeta.
      assert (length r = i + S (S (S (length l2)))) as LR by (rewrite E, !app_length; cbn [length]; lia).
      assert ((S i + length r - 1) mod length r = i) as ->.
      { replace (S i + length r - 1) with (i + 1 * length r) by lia. rewrite Nat.mod_add by lia. apply Nat.mod_small. lia. }
      rewrite (Nat.mod_small (S i + 1)) by lia.
      assert (at_ r i = p) as ->. { unfold at_. rewrite E, <- app_assoc, app_nth2, L1', Nat.sub_diag by lia. reflexivity. }
      assert (at_ r (S i + 1) = n) as ->.
      { unfold at_. rewrite E, app_nth2 by (rewrite app_length; cbn; lia). rewrite app_length. cbn [length].
        replace (S i + 1 - (length l1' + 1)) with 1 by lia. reflexivity. }
      assert (at_ r (S i) = c) as -> by reflexivity. split.
      * exists l1', (p :: c :: n :: l2). split; [rewrite E at 1; rewrite <- app_assoc; reflexivity|reflexivity].
      * exists l1', (p :: n :: l2). split; [|reflexivity]. rewrite E. rewrite firstn_app, skipn_app. rewrite app_length. cbn [length].
        replace (S i - (length l1' + 1)) with 0 by lia. replace (S (S i) - (length l1' + 1)) with 1 by lia.
        rewrite firstn_all2, skipn_all2 by (rewrite app_length; cbn; lia). cbn [firstn skipn app]. rewrite app_nil_r, <- app_assoc. reflexivity.
Qed.

(** ** Sides of a mesh *)

Lemma side_iff : forall m a b, has_side m a b <-> exists fi, live m fi /\ in3 (m_face m fi) a b.
Proof.
  intros m a b. split.
  - intros ([fi k] & [L K] & A & B). exists fi. split; auto. apply in3_iff. exists k. auto.
  - intros (fi & L & I). apply (edge_face m (live m) fi); auto.
Qed.
Lemma in3_corner : forall f a b, in3 f a b -> has_corner f a /\ has_corner f b.
Proof. intros [[p q] r] a b H. cbn in *. intuition auto. Qed.

Lemma add_ok : forall m f, consistent m -> distinct3 f -> m_nf m < m_cap m -> (forall a b, in3 f a b -> ~ has_side m a b) ->
  exists m', add_face m f = Ok m' /\ consistent m' /\ m_cap m' = m_cap m /\ m_nf m' = S (m_nf m) /\
    m_face m' = upd (m_face m) (m_nf m) f /\ m_deleted m' = upd (m_deleted m) (m_nf m) false /\
    (forall a b, has_side m' a b <-> has_side m a b \/ in3 f a b).
Proof.
  intros m f [D LC] DF L NS. pose proof (added m (live m) f D L DF) as S. destruct (add_face m f) as [m'|e|]; [|exfalso|destruct S].
  - exists m'. split; auto. destruct S as (D' & E1 & E2 & E3 & E4 & E5).
    assert (forall x, plus (live m) (m_nf m) x <-> live m' x) as LV by (intros x; apply live_added; auto).
    split; [split; [apply (describes_ext _ _ _ D'); auto|lia]|]. do 4 (split; [auto|]). intros a b.
    change (has_side m' a b) with (edge m' (live m') a b). rewrite <- (edge_ext m' _ _ a b LV), E5. reflexivity.
  - destruct S as (_ & a & b & I & S). apply (NS a b); auto.
Qed.

Lemma corner_in : forall (f : face) v, has_corner f v <-> In v [fst (fst f); snd (fst f); snd f].
Proof. intros [[a b] c] v. cbn. intuition auto. Qed.
(** Of two triangles, if one has a corner the other has not, so has the other. *)
Lemma corner_outside : forall (f g : face) v, distinct3 f -> distinct3 g -> has_corner g v -> ~ has_corner f v ->
  exists z, has_corner f z /\ ~ has_corner g z.
Proof.
  intros f g v DF DG HG NF. rewrite corner_in in HG, NF. set (lf := [fst (fst f); snd (fst f); snd f]) in *. set (lg := [fst (fst g); snd (fst g); snd g]) in *.
  assert (forall h : face, distinct3 h -> NoDup [fst (fst h); snd (fst h); snd h]) as ND.
  { clear. intros [[a b] c] (N1 & N2 & N3). cbn. constructor; [intros [H|[H|[]]]; congruence|]. constructor; [intros [H|[]]; congruence|]. constructor; [intros []|constructor]. }
  destruct (Forall_Exists_dec (fun z => In z lg) (fun z => in_dec Nat.eq_dec z lg) lf) as [A|A].
  - exfalso. apply NF. rewrite Forall_forall in A.
    assert (incl lg lf) as IN. { apply NoDup_length_incl; [apply ND; auto|cbn; lia|]. exact A. }
    apply IN, HG.
  - apply Exists_exists in A. destruct A as (z & Z1 & Z2). exists z. rewrite !corner_in. auto.
Qed.

(** ** Clipping ears *)
Section Clip.
Variable B : nat -> nat -> Prop.      (* the sides of the polygon *)
Variable n0 cap : nat.
Hypothesis CAP : n0 - 2 <= cap.

(** The mesh and the remaining ring. *)
Record ears (m : mesh) (r : list nat) : Prop := {
  e_con : consistent m;
  e_live : forall fi, fi < m_nf m -> m_deleted m fi = false;
  e_cap : m_cap m = cap;
  e_ring : NoDup r;
  e_nf : m_nf m + length r = n0;
  e_open : forall a b, In (a, b) (ring_edges r) -> ~ has_side m a b /\ (B a b \/ has_side m b a);
  e_border : forall a b, B a b -> (In (a, b) (ring_edges r) \/ has_side m a b) /\ ~ has_side m b a;
  e_sides : forall a b, has_side m a b -> B a b \/ has_side m b a \/ In (b, a) (ring_edges r);
  e_chord : forall a b, In a r -> In b r -> has_side m a b -> In (b, a) (ring_edges r);
  e_keep : forall a b, In a r -> In b r -> B a b -> In (a, b) (ring_edges r);
  e_out : forall fi, fi < m_nf m -> exists v, has_corner (m_face m fi) v /\ ~ In v r;
  e_diff : forall i j, i < m_nf m -> j < m_nf m -> i <> j -> exists v, has_corner (m_face m i) v /\ ~ has_corner (m_face m j) v;
  e_used : forall v, v < n0 <-> In v r \/ exists fi, fi < m_nf m /\ has_corner (m_face m fi) v }.

Lemma ears_rot : forall m r r', rot r r' -> ears m r -> ears m r'.
Proof.
  intros m r r' R H. pose proof (rot_edges r r' R) as PE. pose proof (rot_perm r r' R) as PR.
  assert (forall e, In e (ring_edges r') <-> In e (ring_edges r)) as IE.
  { intros e. split; apply Permutation_in; auto. apply Permutation_sym; auto. }
  assert (forall e, In e r' <-> In e r) as IR. { intros e. split; apply Permutation_in; auto. apply Permutation_sym; auto. }
  destruct H. constructor; auto.
  - apply (Permutation_NoDup PR); auto.
  - rewrite <- (Permutation_length PR); auto.
  - intros a b. rewrite IE. auto.
  - intros a b. rewrite IE. auto.
  - intros a b. rewrite IE. auto.
  - intros a b. rewrite !IR, IE. auto.
  - intros a b. rewrite !IR, IE. auto.
  - intros fi L. destruct (e_out0 fi L) as (v & A & C). exists v. rewrite IR. auto.
  - intros v. rewrite IR. auto.
Qed.

Lemma ring_cut : forall p c n rest a b, In (a, b) (ring_edges (p :: c :: n :: rest)) <->
  (a = p /\ b = c) \/ (a = c /\ b = n) \/ In (a, b) (path (n :: rest ++ [p])).
Proof.
  intros. cbn [ring_edges app]. rewrite !path_cons. cbn [In]. split.
  - intros [H|[H|H]]; [injection H as <- <-|injection H as <- <-|]; auto.
  - intros [[-> ->]|[[-> ->]|H]]; auto.
Qed.
Lemma ring_cut' : forall p n rest a b, In (a, b) (ring_edges (p :: n :: rest)) <->
  (a = p /\ b = n) \/ In (a, b) (path (n :: rest ++ [p])).
Proof.
  intros. cbn [ring_edges app]. rewrite !path_cons. cbn [In]. split.
  - intros [H|H]; [injection H as <- <-|]; auto.
  - intros [[-> ->]|H]; auto.
Qed.
Lemma path_start : forall n rest p a b, NoDup (p :: n :: rest) -> In (a, b) (path (n :: rest ++ [p])) -> a <> p /\ (b = p \/ b <> n).
Proof.
  intros n rest p a b N H. change (n :: rest ++ [p]) with ((n :: rest) ++ [p]) in H.
  assert (forall l, ~ In p l -> forall a b, In (a, b) (path (l ++ [p])) -> a <> p) as F.
  { clear. induction l as [|x l IH]; intros NI a b H; [destruct H|]. destruct l as [|y l].
    - cbn in H. destruct H as [H|[]]. injection H as <- <-. intros ->. apply NI. left. auto.
    - change ((x :: y :: l) ++ [p]) with (x :: y :: l ++ [p]) in H. rewrite path_cons in H. destruct H as [H|H].
      + injection H as <- <-. intros ->. apply NI. left. auto.
      + apply (IH (fun G => NI (or_intror G)) a b H). }
  inversion N as [|? ? N1 N2]; subst. split; [apply (F (n :: rest) N1 a b H)|].
  assert (forall l x a b, In (a, b) (path (x :: l)) -> In b l) as G.
  { clear. induction l as [|y l IH]; intros x a b H; [destruct H|]. rewrite path_cons in H.
    destruct H as [H|H]; [injection H as <- <-; left; auto|right; apply (IH y a b H)]. }
  apply G in H. apply in_app_iff in H. destruct H as [H|[H|[]]]; [|auto]. right. intros ->. inversion N2; auto.
Qed.

(** Cutting off the ear [c]. *)
Lemma clip_step : forall m p c n rest, ears m (p :: c :: n :: rest) -> rest <> [] ->
  exists m', add_face m (p, c, n) = Ok m' /\ ears m' (p :: n :: rest) /\ (forall a b, has_side m' a b <-> has_side m a b \/ in3 (p, c, n) a b).
Proof.
  intros m p c n rest H NR. pose proof H as [CO LV CA ND NF OP BO SI CH KE OU DI US].
  assert (p <> c /\ c <> n /\ n <> p) as (N1 & N2 & N3).
  { inversion ND as [|? ? A1 A2]; subst. inversion A2 as [|? ? A3 A4]; subst. cbn in *. repeat split; intros ->; tauto. }
  assert (NoDup (p :: n :: rest)) as ND'.
  { inversion ND as [|? ? A1 A2]; subst. inversion A2 as [|? ? A3 A4]; subst. constructor; auto. intros [->|I]; apply A1; cbn; auto. }
  assert (~ In c (p :: n :: rest)) as NC.
  { inversion ND as [|? ? A1 A2]; subst. inversion A2 as [|? ? A3 A4]; subst. intros [->|I]; [apply A1; cbn; auto|]. apply A3, I. }
  assert (In (p, c) (ring_edges (p :: c :: n :: rest)) /\ In (c, n) (ring_edges (p :: c :: n :: rest))) as (R1 & R2).
  { split; apply ring_cut; auto. }
  assert (exists x, In (n, x) (ring_edges (p :: c :: n :: rest)) /\ x <> p /\ x <> c) as (x & R3 & X1 & X2).
  { destruct rest as [|x rest]; [congruence|]. exists x. split; [apply ring_cut; right; right; cbn [app]; rewrite path_cons; left; auto|].
    inversion ND as [|? ? A1 A2]; subst. inversion A2 as [|? ? A3 A4]; subst. split; intros ->; [apply A1|apply A3]; cbn; auto. }
  assert (forall a b b', In (a, b) (ring_edges (p :: c :: n :: rest)) -> In (a, b') (ring_edges (p :: c :: n :: rest)) -> b = b') as SU.
  { intros a b b'. apply ring_succ. auto. }
  assert (In p (p :: c :: n :: rest) /\ In c (p :: c :: n :: rest) /\ In n (p :: c :: n :: rest)) as (I1 & I2 & I3) by (cbn; auto 10).
  assert (~ has_side m n p) as NP. { intros S. apply N2. apply (SU p); auto. }
  assert (~ has_side m p n) as PN. { intros S. apply X1. apply (SU n); auto. }
  destruct (add_ok m (p, c, n)) as (m' & AD & CO' & CA' & NF' & FA' & DE' & SI'); auto.
  { cbn; auto. }
  { rewrite CA. cbn [length] in NF. destruct rest; [congruence|]. cbn [length] in NF. lia. }
  { intros a b I. cbn in I. destruct I as [[-> ->]|[[-> ->]|[-> ->]]]; auto; apply OP; auto. }
  exists m'. split; auto. split; [|exact SI'].
  assert (forall fi, fi < m_nf m -> m_face m' fi = m_face m fi) as FO by (intros fi L; rewrite FA'; apply upd_other; lia).
  assert (m_face m' (m_nf m) = (p, c, n)) as FN by (rewrite FA'; apply upd_same).
  assert (forall e, In e (p :: n :: rest) -> In e (p :: c :: n :: rest)) as SUB by (cbn; tauto).
  assert (forall a b, In (a, b) (ring_edges (p :: c :: n :: rest)) -> a <> c -> b <> c -> In (a, b) (ring_edges (p :: n :: rest))) as OLD.
  { intros a b I A C. rewrite ring_cut in I. rewrite ring_cut'. destruct I as [[-> ->]|[[-> ->]|I]]; tauto. }
  constructor; auto.
  - intros fi L. rewrite DE'. destruct (Nat.eq_dec fi (m_nf m)) as [->|NE]; [apply upd_same|]. rewrite upd_other by auto. apply LV. lia.
  - congruence.
  - rewrite NF'. cbn [length] in *. lia.
  - intros a b I. rewrite ring_cut' in I. destruct I as [[-> ->]|I].
    + rewrite !SI'. split; [|right; right; cbn; auto]. intros [S|S]; auto. cbn in S. intuition congruence.
    + destruct (path_start _ _ _ _ _ ND' I) as [A C].
      assert (In (a, b) (ring_edges (p :: c :: n :: rest))) as IO by (apply ring_cut; auto). destruct (OP a b IO) as [O1 O2].
      split; [|rewrite SI'; tauto]. rewrite SI'. intros [S|S]; auto. cbn in S. destruct S as [[-> _]|[[-> ->]|[-> ->]]]; try congruence.
      * destruct C; congruence.
      * apply X1. apply (SU n); auto.
  - intros a b BB. destruct (BO a b BB) as [O1 O2]. split.
    + destruct O1 as [O1|O1]; [|right; apply SI'; auto]. rewrite ring_cut in O1. destruct O1 as [[-> ->]|[[-> ->]|O1]].
      * right. apply SI'. cbn. auto.
      * right. apply SI'. cbn. auto.
      * left. apply ring_cut'. auto.
    + rewrite SI'. intros [S|S]; auto. cbn in S. destruct S as [[-> ->]|[[-> ->]|[-> ->]]].
      * apply N3. symmetry. apply (SU c); auto.
      * apply X2. apply (SU n); auto.
      * apply N2. apply (SU p); auto.
  - intros a b S. apply SI' in S. destruct S as [S|S].
    + destruct (SI a b S) as [O|[O|O]]; [auto|right; left; apply SI'; auto|]. rewrite ring_cut in O. destruct O as [[-> ->]|[[-> ->]|O]].
      * right. left. apply SI'. cbn. auto.
      * right. left. apply SI'. cbn. auto.
      * right. right. apply ring_cut'. auto.
    + cbn in S. destruct S as [[-> ->]|[[-> ->]|[-> ->]]].
      * destruct (OP p c R1) as [_ [O|O]]; [auto|right; left; apply SI'; auto].
      * destruct (OP c n R2) as [_ [O|O]]; [auto|right; left; apply SI'; auto].
      * right. right. apply ring_cut'. auto.
  - intros a b Ia Ib S. apply SI' in S. destruct S as [S|S].
    + apply OLD; [apply CH; auto| |]; intros ->; auto.
    + cbn in S. destruct S as [[-> ->]|[[-> ->]|[-> ->]]]; try tauto. apply ring_cut'. auto.
  - intros a b Ia Ib BB. apply OLD; [apply KE; auto| |]; intros ->; auto.
  - intros fi L. destruct (Nat.eq_dec fi (m_nf m)) as [->|NE].
    + exists c. rewrite FN. split; [cbn; auto|auto].
    + rewrite FO by lia. destruct (OU fi ltac:(lia)) as (v & V1 & V2). exists v. split; auto.
  - intros i j Li Lj NE. destruct (Nat.eq_dec i (m_nf m)) as [->|NI], (Nat.eq_dec j (m_nf m)) as [->|NJ]; try congruence.
    + rewrite FN, (FO j) by lia. destruct (OU j ltac:(lia)) as (v & V1 & V2).
      pose proof CO as ((F & _) & _). assert (distinct3 (m_face m j)) as DJ by (apply F; split; [lia|apply LV; lia]).
      apply (corner_outside (p, c, n) (m_face m j) v); auto; [cbn; auto|]. intros W. apply V2. destruct W as [->|[->| ->]]; auto.
    + rewrite FN, (FO i) by lia. destruct (OU i ltac:(lia)) as (v & V1 & V2). exists v. split; auto. cbn. intros [->|[->| ->]]; apply V2; auto.
    + rewrite !FO by lia. apply DI; auto; lia.
  - intros v. rewrite US. split.
    + intros [I|(fi & L & HC)].
      * destruct (Nat.eq_dec v c) as [->|NE]; [right; exists (m_nf m); rewrite FN; split; [lia|cbn; auto]|]. left. destruct I as [->|[->|I]]; [left; auto|congruence|right; auto].
      * right. exists fi. rewrite FO by auto. split; [lia|auto].
    + intros [I|(fi & L & HC)]; [left; auto|]. destruct (Nat.eq_dec fi (m_nf m)) as [->|NE].
      * left. rewrite FN in HC. cbn in HC. destruct HC as [->|[->| ->]]; auto.
      * right. exists fi. rewrite FO in HC by lia. split; [lia|auto].
Qed.

(** A triangulated disk. *)
Record disk (m : mesh) (ins : list nat) : Prop := {
  d_con : consistent m;
  d_live : forall fi, fi < m_nf m -> m_deleted m fi = false;
  d_cap : m_cap m = cap;
  d_nf : m_nf m = n0 - 2 + 2 * length ins;
  d_border : forall a b, (has_side m a b /\ ~ has_side m b a) <-> B a b;
  d_diff : forall i j, i < m_nf m -> j < m_nf m -> i <> j -> exists v, has_corner (m_face m i) v /\ ~ has_corner (m_face m j) v;
  d_used : forall v, (exists fi, fi < m_nf m /\ has_corner (m_face m fi) v) <-> v < n0 \/ In v ins;
  d_ins : NoDup ins }.

Lemma clip_last : forall m p c n, ears m [p; c; n] ->
  exists m', add_face m (p, c, n) = Ok m' /\ disk m' [] /\ (forall a b, has_side m' a b <-> has_side m a b \/ in3 (p, c, n) a b).
Proof.
  intros m p c n H. pose proof H as [CO LV CA ND NF OP BO SI CH KE OU DI US].
  assert (p <> c /\ c <> n /\ n <> p) as (N1 & N2 & N3).
  { inversion ND as [|? ? A1 A2]; subst. inversion A2 as [|? ? A3 A4]; subst. cbn in *. repeat split; intros ->; tauto. }
  assert (forall a b, In (a, b) (ring_edges [p; c; n]) <-> in3 (p, c, n) a b) as RE.
  { intros a b. rewrite ring_cut. cbn. split; [intros [X|[X|[X|[]]]]; [auto|auto|injection X as <- <-; auto]|intros [X|[X|[-> ->]]]; auto]. }
  destruct (add_ok m (p, c, n)) as (m' & AD & CO' & CA' & NF' & FA' & DE' & SI'); auto.
  { cbn; auto. }
  { rewrite CA. cbn [length] in NF. lia. }
  { intros a b I. apply OP, RE, I. }
  exists m'. split; auto. split; [|exact SI'].
  assert (forall fi, fi < m_nf m -> m_face m' fi = m_face m fi) as FO by (intros fi L; rewrite FA'; apply upd_other; lia).
  assert (m_face m' (m_nf m) = (p, c, n)) as FN by (rewrite FA'; apply upd_same).
  assert (forall a b, In a [p; c; n] -> In b [p; c; n] -> B a b -> ~ in3 (p, c, n) b a) as NB.
  { intros a b Ia Ib BB I. pose proof (KE a b Ia Ib BB) as R. apply RE in R. cbn in R, I. destruct R as [[-> ->]|[[-> ->]|[-> ->]]], I as [[? ?]|[[? ?]|[? ?]]]; congruence. }
  constructor; auto.
  - intros fi L. rewrite DE'. destruct (Nat.eq_dec fi (m_nf m)) as [->|NE]; [apply upd_same|]. rewrite upd_other by auto. apply LV. lia.
  - congruence.
  - rewrite NF'. cbn [length] in *. lia.
  - intros a b. rewrite !SI', <- !RE. split.
    + intros [[S|S] NS].
      * destruct (SI a b S) as [O|[O|O]]; tauto.
      * destruct (OP a b S) as [_ [O|O]]; tauto.
    + intros BB. destruct (BO a b BB) as [O1 O2]. split; [tauto|]. intros [S|S]; [auto|]. apply RE in S.
      destruct (in3_corner _ _ _ S) as [Sb Sa]. rewrite corner_in in Sa, Sb. apply (NB a b); auto.
  - intros i j Li Lj NE. destruct (Nat.eq_dec i (m_nf m)) as [->|NI], (Nat.eq_dec j (m_nf m)) as [->|NJ]; try congruence.
    + rewrite FN, (FO j) by lia. destruct (OU j ltac:(lia)) as (v & V1 & V2).
      pose proof CO as ((F & _) & _). assert (distinct3 (m_face m j)) as DJ by (apply F; split; [lia|apply LV; lia]).
      apply (corner_outside (p, c, n) (m_face m j) v); auto; [cbn; auto|]. intros W. apply V2. destruct W as [->|[->| ->]]; cbn; auto.
    + rewrite FN, (FO i) by lia. destruct (OU i ltac:(lia)) as (v & V1 & V2). exists v. split; auto. intros W. apply V2. destruct W as [->|[->| ->]]; cbn; auto.
    + rewrite !FO by lia. apply DI; auto; lia.
  - intros v. rewrite US. split.
    + intros (fi & L & HC). left. destruct (Nat.eq_dec fi (m_nf m)) as [->|NE].
      * left. rewrite FN in HC. rewrite corner_in in HC. exact HC.
      * right. exists fi. rewrite FO in HC by lia. split; [lia|auto].
    + intros [[I|(fi & L & HC)]|[]].
      * exists (m_nf m). rewrite FN. split; [lia|]. apply corner_in. exact I.
      * exists fi. rewrite FO by auto. split; [lia|auto].
  - constructor.
Qed.

Lemma fan_ok : forall rest m r0 a b, ears m (r0 :: a :: b :: rest) -> exists m', fan m r0 (a :: b :: rest) = Ok m'.
Proof.
  induction rest as [|x rest IH]; intros m r0 a b H.
  - destruct (clip_last _ _ _ _ H) as (m' & A & _). exists m'. cbn [fan]. rewrite A. reflexivity.
  - destruct (clip_step _ _ _ _ _ H) as (m' & A & H' & _); [discriminate|]. destruct (IH m' r0 b x H') as (m'' & F).
    exists m''. cbn [fan] in *. rewrite A. exact F.
Qed.
End Clip.

Section Ears.
Variable E : tenv.
Definition bad_labels : Prop := labels E <> [] /\ length (labels E) < nb E.
Definition unlabelled (a b : nat) : Prop := border E a b \/ border E b a \/ shares_edge E a b = Ok false.
Definition labels_ok (m : mesh) : Prop := forall a b, has_side m a b -> unlabelled a b.

Lemma shares_sym : forall a b, shares_edge E a b = shares_edge E b a.
Proof. intros a b. unfold shares_edge. rewrite (Nat.min_comm a b), (Nat.max_comm a b). reflexivity. Qed.
Lemma unlabelled_sym : forall a b, unlabelled a b -> unlabelled b a.
Proof. intros a b. unfold unlabelled. rewrite (shares_sym a b). tauto. Qed.
Lemma shares_throw : forall a b, match shares_edge E a b with Ok _ => True | Throw e => e = ExOutOfRange /\ bad_labels | UB => False end.
Proof.
  intros a b. unfold shares_edge, bad_labels. destruct (labels E) as [|l ls] eqn:L; auto. rewrite <- L.
  destruct (Nat.leb_spec (nb E) (Nat.min a b)), (Nat.leb_spec (nb E) (Nat.max a b)); cbn [orb]; auto.
  destruct (nth_error (labels E) (Nat.min a b)) as [x|] eqn:X.
  - destruct ((fst x <? 0)%Z && (snd x <? 0)%Z); auto. destruct (nth_error (labels E) (Nat.max a b)) eqn:Y; auto.
    apply nth_error_None in Y. split; auto. split; [rewrite L; discriminate|lia].
  - apply nth_error_None in X. split; auto. split; [rewrite L; discriminate|lia].
Qed.

Lemma find_ear_spec : forall ring is, match find_ear E ring is with
  | Ok (Some i) => In i is /\ shares_edge E (at_ ring ((i + length ring - 1) mod length ring)) (at_ ring ((i + 1) mod length ring)) = Ok false
  | Ok None => True
  | Throw e => e = ExOutOfRange /\ bad_labels
  | UB => False
  end.
Proof.
  intros ring is. induction is as [|i is IH]; cbn [find_ear]; auto.
  assert (match find_ear E ring is with
  | Ok (Some j) => In j (i :: is) /\ shares_edge E (at_ ring ((j + length ring - 1) mod length ring)) (at_ ring ((j + 1) mod length ring)) = Ok false
  | Ok None => True
  | Throw e => e = ExOutOfRange /\ bad_labels
  | UB => False
  end) as IH'. { destruct (find_ear E ring is) as [[j|]|e|]; auto. destruct IH. split; [right|]; auto. }
  destruct (convex E _ _ _); cbn [negb]; auto.
  pose proof (shares_throw (at_ ring ((i + length ring - 1) mod length ring)) (at_ ring ((i + 1) mod length ring))) as T.
  destruct (shares_edge E _ _) as [s|e|] eqn:S; cbn [bind]; auto. destruct s; auto.
  destruct (existsb _ ring); auto. split; [left; auto|auto].
Qed.

Definition cap : nat := nb E - 2 + 2 * ni E.
Lemma cap_ge : nb E - 2 <= cap. Proof. unfold cap. lia. Qed.

Lemma clip_spec : forall k ring m, ears (border E) (nb E) cap m ring -> length ring = k + 3 -> labels_ok m ->
  match clip E k ring m with
  | Ok (true, m') => disk (border E) (nb E) cap m' [] /\ labels_ok m'
  | Ok (false, _) => True
  | Throw e => e = ExOutOfRange /\ bad_labels
  | UB => False
  end.
Proof.
  induction k as [|k IH]; intros ring m H L LO; cbn [clip].
  - destruct ring as [|p [|c [|n [|? ?]]]]; try (cbn in L; lia). unfold at_. cbn [nth].
    destruct (clip_last _ _ _ cap_ge _ _ _ _ H) as (m' & -> & D & SI). cbn [bind]. split; auto. intros a b S. apply SI in S.
    destruct S as [S|S]; [apply LO; auto|]. assert (In (a, b) (ring_edges [p; c; n])) as R.
    { apply ring_cut. cbn in S |- *. destruct S as [S|[S|[-> ->]]]; auto. }
    destruct (e_open _ _ _ _ _ H a b R) as [_ [O|O]]; [left; auto|apply unlabelled_sym, LO, O].
  - pose proof (find_ear_spec ring (seq 0 (length ring))) as FS.
    destruct (find_ear E ring (seq 0 (length ring))) as [[i|]|e|]; cbn [bind]; auto.
    + destruct FS as [I SH]. apply in_seq in I. destruct (ring_at ring i ltac:(lia) ltac:(lia)) as (rest & R1 & R2). cbn zeta in R1, R2.
      set (p := at_ ring ((i + length ring - 1) mod length ring)) in *. set (c := at_ ring i) in *. set (n := at_ ring ((i + 1) mod length ring)) in *.
      assert (length (p :: c :: n :: rest) = length ring) as LR by (symmetry; apply Permutation_length, rot_perm, R1). cbn [length] in LR.
      pose proof (ears_rot _ _ _ _ _ _ R1 H) as H1.
      destruct (clip_step _ _ _ cap_ge _ _ _ _ _ H1) as (m' & -> & H2 & SI); [destruct rest; [cbn in LR; lia|discriminate]|]. cbn [bind].
      apply IH.
      * apply (ears_rot _ _ _ _ _ _ (rot_sym _ _ R2) H2).
      * rewrite (Permutation_length (rot_perm _ _ R2)). cbn [length]. lia.
      * intros a b S. apply SI in S. destruct S as [S|S]; [apply LO; auto|]. cbn in S. destruct S as [[-> ->]|[[-> ->]|[-> ->]]].
        -- destruct (e_open _ _ _ _ _ H1 p c) as [_ [O|O]]; [apply ring_cut; auto|left; auto|apply unlabelled_sym, LO, O].
        -- destruct (e_open _ _ _ _ _ H1 c n) as [_ [O|O]]; [apply ring_cut; auto|left; auto|apply unlabelled_sym, LO, O].
        -- right. right. rewrite shares_sym. auto.
    + destruct ring as [|r0 [|a [|b rest]]]; try (cbn in L; lia). unfold at_. cbn [nth tl].
      destruct (fan_ok _ _ _ cap_ge rest m r0 a b H) as (m' & ->). cbn [bind]. auto.
Qed.

(** ** The first ring *)
Lemma path_seq : forall k a x i j, In (i, j) (path (seq a (S k) ++ [x])) <-> (a <= i < a + k /\ j = S i) \/ (i = a + k /\ j = x).
Proof.
  induction k as [|k IH]; intros a x i j.
  - cbn. split; [intros [X|[]]; injection X as <- <-; right; split; lia|]. intros [[X _]|[-> ->]]; [lia|]. left. f_equal. lia.
  - change (seq a (S (S k)) ++ [x]) with (a :: seq (S a) (S k) ++ [x]).
    change (path (a :: seq (S a) (S k) ++ [x])) with ((a, S a) :: path (seq (S a) (S k) ++ [x])). cbn [In]. rewrite IH. split.
    + intros [X|[X|X]]; [injection X as <- <-; left; lia|left; lia|right; lia].
    + intros [[X ->]|[-> ->]]; [|right; right; lia]. destruct (Nat.eq_dec i a) as [->|]; [left; auto|right; left; lia].
Qed.
Lemma path_rev : forall l a b, In (a, b) (path (rev l)) <-> In (b, a) (path l).
Proof.
  induction l as [|x l IH]; intros a b; [reflexivity|]. destruct l as [|y l]; [reflexivity|].
  rewrite path_cons. change (rev (x :: y :: l)) with ((rev l ++ [y]) ++ [x]). rewrite <- app_assoc. cbn [app]. rewrite path_app, in_app_iff.
  change (rev l ++ [y]) with (rev (y :: l)). rewrite IH. cbn. split.
  - intros [X|[X|[]]]; [auto|injection X as <- <-; auto].
  - intros [X|X]; [injection X as <- <-; auto|auto].
Qed.
Lemma ring_rev : forall r a b, In (a, b) (ring_edges (rev r)) <-> In (b, a) (ring_edges r).
Proof.
  intros [|x l] a b; [reflexivity|].
  assert (rot (rev (x :: l)) (x :: rev l)) as R by (exists (rev l), [x]; auto).
  assert (In (a, b) (ring_edges (rev (x :: l))) <-> In (a, b) (ring_edges (x :: rev l))) as ->.
  { split; apply Permutation_in; [|apply Permutation_sym]; apply rot_edges, R. }
  cbn [ring_edges]. rewrite <- path_rev. f_equiv. f_equiv. cbn. rewrite rev_app_distr, rev_involutive. reflexivity.
Qed.
Lemma ring0_edges : 3 <= nb E -> forall a b, In (a, b) (ring_edges (ring0 E)) <-> border E a b.
Proof.
  intros L. assert (forall a b, In (a, b) (ring_edges (seq 0 (nb E))) <-> follows E a b) as S.
  { intros a b. unfold follows. destruct (nb E) as [|k]; [lia|]. cbn [seq ring_edges].
    change (0 :: seq 1 k ++ [0]) with (seq 0 (S k) ++ [0]). rewrite path_seq. lia. }
  intros a b. unfold ring0, border. destruct (backwards E); [rewrite ring_rev|]; apply S.
Qed.
Lemma follows_asym : 3 <= nb E -> forall a b, follows E a b -> follows E b a -> False.
Proof. unfold follows. intros. lia. Qed.
Lemma border_asym : 3 <= nb E -> forall a b, border E a b -> border E b a -> False.
Proof. intros L a b. unfold border. destruct (backwards E); intros; eapply follows_asym; eauto. Qed.
Lemma border_lt : forall a b, border E a b -> a < nb E /\ b < nb E.
Proof. intros a b. unfold border, follows. destruct (backwards E); tauto. Qed.

Lemma ring0_in : forall v, In v (ring0 E) <-> v < nb E.
Proof. intros v. unfold ring0. destruct (backwards E); rewrite <- ?in_rev, in_seq; lia. Qed.
Lemma no_sides : forall c a b, ~ has_side (empty c) a b.
Proof. intros c a b (h & [[L _] _] & _). cbn in L. lia. Qed.

Lemma ears_start : 3 <= nb E -> ears (border E) (nb E) cap (empty cap) (ring0 E).
Proof.
  intros L. constructor.
  - apply empty_consistent.
  - intros fi H. cbn in H. lia.
  - reflexivity.
  - unfold ring0. destruct (backwards E); [apply NoDup_rev|]; apply seq_NoDup.
  - unfold ring0. destruct (backwards E); rewrite ?rev_length, seq_length; reflexivity.
  - intros a b H. apply (ring0_edges L) in H. split; [apply no_sides|auto].
  - intros a b H. split; [left; apply (ring0_edges L); auto|apply no_sides].
  - intros a b H. destruct (no_sides _ _ _ H).
  - intros a b _ _ H. destruct (no_sides _ _ _ H).
  - intros a b _ _ H. apply (ring0_edges L). auto.
  - intros fi H. cbn in H. lia.
  - intros i j H. cbn in H. lia.
  - intros v. rewrite ring0_in. split; [auto|]. intros [H|(fi & H & _)]; [auto|cbn in H; lia].
Qed.

Theorem clip_start : 3 <= nb E -> match clip E (nb E - 3) (ring0 E) (empty cap) with
  | Ok (true, m') => disk (border E) (nb E) cap m' [] /\ labels_ok m'
  | Ok (false, _) => True
  | Throw e => e = ExOutOfRange /\ bad_labels
  | UB => False
  end.
Proof.
  intros L. apply clip_spec.
  - apply ears_start. auto.
  - unfold ring0. destruct (backwards E); rewrite ?rev_length, seq_length; lia.
  - intros a b H. destruct (no_sides _ _ _ H).
Qed.
End Ears.
