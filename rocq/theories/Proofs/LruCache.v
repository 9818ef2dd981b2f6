From Coq Require Import List Arith Bool Lia.
From Verif Require Import Model.Outcome Model.LruCache Spec.LruCache.
Import ListNotations.

Section P.

Variables (K V : Type).
Variable keqb : K -> K -> bool.
Hypothesis keqb_spec : forall a b, keqb a b = true <-> a = b.

Notation lru := (lru K V).
Notation node := (node K V).

Lemma keqb_refl k : keqb k k = true.
Proof. now apply keqb_spec. Qed.

Lemma keqb_neq a b : keqb a b = false <-> a <> b.
Proof.
  split.
  - intros H ->. rewrite keqb_refl in H. discriminate.
  - intros H. destruct (keqb a b) eqn:E; [|reflexivity]. apply keqb_spec in E. contradiction.
Qed.

Record Inv (c : lru) : Prop := {
  inv_addr : NoDup (map addr (nodes c));
  inv_key : NoDup (map nkey (nodes c));
  inv_fresh : forall n, In n (nodes c) -> addr n < fresh c;
  inv_size : length (nodes c) <= capacity c;
  inv_index : forall k a, map_find keqb (index c) k = Some a <->
                          exists n, In n (nodes c) /\ nkey n = k /\ addr n = a
}.

Lemma inv_empty cap : Inv (empty cap).
Proof.
  constructor; simpl; try constructor; try lia; try contradiction; try easy.
  intros [n [[] _]].
Qed.

Lemma inv_clear c : Inv c -> Inv (clear c).
Proof.
  intros H. constructor; simpl; try constructor; try lia; try contradiction; try easy.
  intros [n [[] _]].
Qed.

Lemma lookup_node_in (l : list node) a n : NoDup (map addr l) ->
  (lookup_node l a = Some n <-> (In n l /\ addr n = a)).
Proof.
  unfold lookup_node. induction l as [|m l IH]; simpl; intros Hnd.
  - split; [discriminate|intros [[] _]].
  - inversion Hnd as [|x xs Hx Hxs]; subst. specialize (IH Hxs).
    destruct (Nat.eqb_spec a (addr m)) as [->|Hne].
    + split.
      * intros [= ->]. auto.
      * intros [[->|Hin] Ha]; [reflexivity|].
        exfalso. apply Hx. rewrite <- Ha. now apply in_map.
    + rewrite IH. split.
      * intros [Hin Ha]. auto.
      * intros [[->|Hin] Ha]; [congruence|auto].
Qed.

Lemma map_find_insert m k a k' :
  map_find keqb m k = None ->
  map_find keqb (map_insert keqb m k a) k' = if keqb k' k then Some a else map_find keqb m k'.
Proof. intros H. unfold map_insert. rewrite H. simpl. reflexivity. Qed.

Lemma map_find_erase m k k' :
  map_find keqb (map_erase keqb m k) k' = if keqb k k' then None else map_find keqb m k'.
Proof.
  induction m as [|[k0 a0] m IH]; simpl.
  - now destruct (keqb k k').
  - destruct (keqb k k0) eqn:E0; simpl.
    + rewrite IH. destruct (keqb k k') eqn:E; [reflexivity|].
      destruct (keqb k' k0) eqn:E'; [|reflexivity].
      apply keqb_spec in E0, E'. subst. rewrite keqb_refl in E. discriminate.
    + rewrite IH. destruct (keqb k' k0) eqn:E'; [|reflexivity].
      apply keqb_spec in E'. subst. now rewrite E0.
Qed.

Lemma find_present c k : Inv c ->
  (find keqb c k = ItEnd -> forall n, In n (nodes c) -> nkey n <> k) /\
  (forall a, find keqb c k = ItNode a -> exists n, In n (nodes c) /\ nkey n = k /\ addr n = a).
Proof.
  intros H. unfold find.
  destruct (map_find keqb (index c) k) as [a|] eqn:E; split.
  - discriminate.
  - intros a' [= <-]. now apply (inv_index _ H).
  - intros _ n Hn Hk.
    assert (map_find keqb (index c) k = Some (addr n)) by (apply (inv_index _ H); eauto).
    congruence.
  - discriminate.
Qed.

Lemma mem_spec (m : acache K V) k : mem keqb m k = true <-> In k (map fst m).
Proof.
  unfold mem. rewrite existsb_exists, in_map_iff. split.
  - intros [e [He Hk]]. apply keqb_spec in Hk. eauto.
  - intros [e [Hk He]]. exists e. split; [assumption|]. now apply keqb_spec.
Qed.

Lemma map_fst_contents (c : lru) : map fst (contents c) = map nkey (nodes c).
Proof. unfold contents. rewrite map_map. reflexivity. Qed.

Lemma find_mem (c : lru) k : Inv c ->
  (find keqb c k = ItEnd <-> mem keqb (contents c) k = false).
Proof.
  intros H. destruct (find_present c k H) as [HE HN].
  rewrite <- not_true_iff_false, mem_spec, map_fst_contents.
  destruct (find keqb c k) as [|a] eqn:E; split; try discriminate; try easy.
  - intros _ Hin. apply in_map_iff in Hin. destruct Hin as [n [Hk Hn]].
    exact (HE eq_refl n Hn Hk).
  - intros Hn. exfalso. apply Hn. destruct (HN a eq_refl) as [n [Hi [Hk _]]].
    apply in_map_iff. eauto.
Qed.

Lemma in_removelast {A} (x : A) l : In x (removelast l) -> In x l.
Proof.
  induction l as [|y l IH]; simpl; [easy|].
  destruct l as [|z l]; [easy|]. simpl in *. intuition.
Qed.

Lemma nodup_app_r {A} (l l' : list A) : NoDup (l ++ l') -> NoDup l /\ (forall x, In x l -> ~ In x l').
Proof.
  induction l as [|a l IH]; simpl; intros H.
  - split; [constructor|easy].
  - inversion H as [|? ? Ha Hl]; subst. destruct (IH Hl) as [H1 H2]. split.
    + constructor; [|assumption]. intros Hin. apply Ha. apply in_or_app. now left.
    + intros x [<-|Hx]; [|auto]. intros Hin. apply Ha. apply in_or_app. now right.
Qed.

Lemma removelast_firstn_len {A} (l : list A) : removelast l = firstn (pred (length l)) l.
Proof.
  induction l as [|x l IH]; [reflexivity|].
  destruct l as [|y l]; [reflexivity|].
  change (removelast (x :: y :: l)) with (x :: removelast (y :: l)).
  rewrite IH. reflexivity.
Qed.

Lemma rev_cons_last {A} (l : list A) b r : rev l = b :: r -> l = rev r ++ [b].
Proof.
  intros H. rewrite <- (rev_involutive l), H. reflexivity.
Qed.

Lemma try_emplace_inv c k v : Inv c -> Inv (snd (try_emplace keqb c k v)).
Proof.
  intros H. unfold try_emplace.
  destruct (find keqb c k) as [|a] eqn:Ef; [|exact H].
  destruct (find_present c k H) as [HE _]. specialize (HE Ef).
  assert (Hmf : map_find keqb (index c) k = None).
  { unfold find in Ef. destruct (map_find keqb (index c) k); [discriminate|reflexivity]. }
  set (l1 := mk_node (fresh c) k v :: nodes c).
  set (m1 := map_insert keqb (index c) k (fresh c)).
  assert (Ha1 : NoDup (map addr l1)).
  { simpl. constructor; [|apply inv_addr, H].
    intros Hin. apply in_map_iff in Hin. destruct Hin as [n [Hn Hi]].
    apply (inv_fresh _ H) in Hi. lia. }
  assert (Hk1 : NoDup (map nkey l1)).
  { simpl. constructor; [|apply inv_key, H].
    intros Hin. apply in_map_iff in Hin. destruct Hin as [n [Hn Hi]].
    exact (HE n Hi Hn). }
  assert (Hf1 : forall n, In n l1 -> addr n < S (fresh c)).
  { intros n [<-|Hn]; simpl; [lia|]. apply (inv_fresh _ H) in Hn. lia. }
  assert (Hi1 : forall k' a', map_find keqb m1 k' = Some a' <->
                exists n, In n l1 /\ nkey n = k' /\ addr n = a').
  { intros k' a'. unfold m1. rewrite map_find_insert by assumption.
    destruct (keqb k' k) eqn:E.
    - apply keqb_spec in E. subst k'. split.
      + intros [= <-]. exists (mk_node (fresh c) k v). simpl. auto.
      + intros [n [[<-|Hn] [Hk Ha]]]; simpl in *; [congruence|].
        exfalso. exact (HE n Hn Hk).
    - apply keqb_neq in E. rewrite (inv_index _ H). split.
      + intros [n [Hn Hka]]. exists n. simpl. auto.
      + intros [n [[<-|Hn] [Hk Ha]]]; [simpl in Hk; congruence|eauto]. }
  cbn [snd].
  destruct (Nat.ltb_spec (capacity c) (length l1)) as [Hlt|Hge].
  - destruct (rev l1) as [|b r] eqn:Er.
    { apply (f_equal (@length _)) in Er. rewrite rev_length in Er. simpl in Er. lia. }
    apply rev_cons_last in Er.
    unfold pop_back. rewrite Er, removelast_last.
    rewrite Er in Ha1, Hk1, Hf1, Hi1. rewrite map_app in Ha1, Hk1.
    destruct (nodup_app_r _ _ Ha1) as [Ha2 Ha3].
    destruct (nodup_app_r _ _ Hk1) as [Hk2 Hk3].
    constructor; simpl.
    + assumption.
    + assumption.
    + intros n Hn. apply Hf1. apply in_or_app. now left.
    + assert (Hs := inv_size _ H).
      apply (f_equal (@length _)) in Er. rewrite app_length in Er. simpl in Er. lia.
    + intros k' a'. rewrite map_find_erase.
      destruct (keqb (nkey b) k') eqn:E.
      * apply keqb_spec in E. subst k'. split; [discriminate|].
        intros [n [Hn [Hk Ha]]]. exfalso.
        apply (Hk3 (nkey n)); [now apply in_map|]. rewrite Hk. simpl. auto.
      * apply keqb_neq in E. rewrite Hi1. split.
        -- intros [n [Hn [Hk Ha]]]. apply in_app_or in Hn.
           destruct Hn as [Hn|[<-|[]]]; [eauto|congruence].
        -- intros [n [Hn Hka]]. exists n. split; [apply in_or_app; now left|assumption].
  - constructor; simpl; try assumption.
Qed.

Lemma length_contents (c : lru) : length (contents c) = length (nodes c).
Proof. apply map_length. Qed.

Lemma try_emplace_contents c k v : Inv c ->
  contents (snd (try_emplace keqb c k v)) = a_emplace keqb (capacity c) (contents c) k v.
Proof.
  intros H. unfold try_emplace, a_emplace.
  destruct (find keqb c k) as [|a] eqn:Ef.
  - assert (Hm := proj1 (find_mem c k H) Ef). rewrite Hm.
    assert (Hs := inv_size _ H).
    cbn [snd].
    destruct (Nat.ltb_spec (capacity c) (length (mk_node (fresh c) k v :: nodes c))) as [Hlt|Hge].
    + destruct (rev (mk_node (fresh c) k v :: nodes c)) as [|b r] eqn:Er.
      { apply (f_equal (@length _)) in Er. rewrite rev_length in Er. simpl in Er. lia. }
      unfold contents at 1, pop_back. cbn [nodes].
      rewrite removelast_firstn_len, <- firstn_map.
      cbn [map entry nkey nval length pred] in *. fold (contents c).
      replace (length (nodes c)) with (capacity c) by lia. reflexivity.
    + unfold contents at 1. cbn [nodes map entry nkey nval].
      fold (contents c). rewrite firstn_all2; [reflexivity|].
      cbn [length] in *. rewrite length_contents. lia.
  - assert (Hm : mem keqb (contents c) k = true).
    { destruct (mem keqb (contents c) k) eqn:E; [reflexivity|].
      apply (find_mem c k H) in E. congruence. }
    rewrite Hm. reflexivity.
Qed.

Lemma get_in (m : acache K V) k v : NoDup (map fst m) ->
  (get keqb m k = Some v <-> In (k, v) m).
Proof.
  induction m as [|[k0 v0] m IH]; simpl; intros Hnd.
  - split; [discriminate|easy].
  - inversion Hnd as [|? ? Hx Hxs]; subst. specialize (IH Hxs).
    destruct (keqb k k0) eqn:E.
    + apply keqb_spec in E. subst k0. split.
      * intros [= ->]. now left.
      * intros [[= ->]|Hin]; [reflexivity|].
        exfalso. apply Hx. apply (in_map fst) in Hin. exact Hin.
    + apply keqb_neq in E. rewrite IH. split; [auto|].
      intros [[= -> ->]|Hin]; [congruence|assumption].
Qed.

Lemma get_none (m : acache K V) k : get keqb m k = None <-> mem keqb m k = false.
Proof.
  unfold mem. induction m as [|[k0 v0] m IH]; simpl; [easy|].
  destruct (keqb k k0); simpl; [easy|assumption].
Qed.

Lemma nodup_filter_map {A B} (f : A -> B) (p : A -> bool) l :
  NoDup (map f l) -> NoDup (map f (filter p l)).
Proof.
  induction l as [|x l IH]; simpl; intros H; [constructor|].
  inversion H as [|? ? Hx Hl]; subst. destruct (p x); simpl; [|auto].
  constructor; [|auto]. intros Hin. apply Hx.
  apply in_map_iff in Hin. destruct Hin as [y [Hy Hin]]. apply filter_In in Hin.
  rewrite <- Hy. apply in_map. tauto.
Qed.

Lemma filter_addr_key c n : Inv c -> In n (nodes c) ->
  filter (fun m => negb (Nat.eqb (addr n) (addr m))) (nodes c) =
  filter (fun m => negb (keqb (nkey n) (nkey m))) (nodes c).
Proof.
  intros H Hn. apply filter_ext_in. intros m Hm. f_equal.
  assert (Hinj : forall {B} (f : node -> B), NoDup (map f (nodes c)) -> f n = f m -> n = m).
  { intros B f Hnd Heq. clear -Hnd Heq Hn Hm.
    induction (nodes c) as [|x l IH]; simpl in *; [easy|].
    inversion Hnd as [|? ? Hx Hl]; subst.
    destruct Hn as [->|Hn], Hm as [->|Hm]; auto.
    - exfalso. apply Hx. rewrite Heq. now apply in_map.
    - exfalso. apply Hx. rewrite <- Heq. now apply in_map. }
  destruct (Nat.eqb_spec (addr n) (addr m)) as [E|E].
  - rewrite (Hinj _ addr (inv_addr _ H) E). symmetry. apply keqb_refl.
  - symmetry. apply keqb_neq. intros E'. apply E.
    now rewrite (Hinj _ nkey (inv_key _ H) E').
Qed.

Lemma filter_without_length {A} (f : A -> bool) l x :
  In x l -> f x = false -> length (filter f l) < length l.
Proof.
  induction l as [|y l IH]; simpl; [easy|]. intros [->|Hin] Hf.
  - rewrite Hf. assert (length (filter f l) <= length l).
    { clear. induction l as [|z l IH]; simpl; [lia|]. destruct (f z); simpl; lia. }
    lia.
  - specialize (IH Hin Hf). destruct (f y); simpl; lia.
Qed.

(** Touching a live node. *)
Lemma touch_node (c : lru) n : Inv c -> In n (nodes c) ->
  exists c', touch c (ItNode (addr n)) = Ok c' /\ Inv c' /\ capacity c' = capacity c /\
             contents c' = entry n :: without keqb (contents c) (nkey n) /\
             deref c' (ItNode (addr n)) = Ok (entry n).
Proof.
  intros H Hn. unfold touch.
  assert (Hl : lookup_node (nodes c) (addr n) = Some n)
    by (apply lookup_node_in; [apply inv_addr, H|auto]).
  rewrite Hl. eexists. split; [reflexivity|].
  set (rest := filter (fun m => negb (Nat.eqb (addr n) (addr m))) (nodes c)).
  assert (Hin : forall m, In m (n :: rest) <-> In m (nodes c)).
  { intros m. unfold rest. split.
    - intros [<-|Hm]; [assumption|]. apply filter_In in Hm. tauto.
    - intros Hm. simpl. rewrite filter_In.
      destruct (Nat.eqb_spec (addr n) (addr m)) as [E|E]; [|simpl; tauto].
      left. symmetry in E.
      assert (Hm' : lookup_node (nodes c) (addr n) = Some m)
        by (apply lookup_node_in; [apply inv_addr, H|auto]).
      congruence. }
  split; [constructor; simpl|split; [reflexivity|split]].
  - constructor.
    + intros Hi. apply in_map_iff in Hi. destruct Hi as [m [Hm Hi]].
      unfold rest in Hi. apply filter_In in Hi. rewrite Hm, Nat.eqb_refl in Hi.
      destruct Hi; discriminate.
    + apply nodup_filter_map, inv_addr, H.
  - constructor.
    + intros Hi. apply in_map_iff in Hi. destruct Hi as [m [Hm Hi]].
      unfold rest in Hi. rewrite (filter_addr_key c n H Hn) in Hi.
      apply filter_In in Hi. rewrite Hm, keqb_refl in Hi. destruct Hi; discriminate.
    + apply nodup_filter_map, inv_key, H.
  - intros m Hm. apply (inv_fresh _ H). now apply Hin.
  - assert (Hs := inv_size _ H).
    assert (length rest < length (nodes c)); [|lia].
    apply filter_without_length with n; [assumption|]. now rewrite Nat.eqb_refl.
  - intros k a. rewrite (inv_index _ H). split; intros [m [Hm Hka]]; exists m;
      (split; [now apply Hin|assumption]).
  - unfold contents, without. cbn [nodes map]. f_equal.
    unfold rest. rewrite (filter_addr_key c n H Hn).
    clear. induction (nodes c) as [|m l IH]; simpl; [reflexivity|].
    destruct (keqb (nkey n) (nkey m)); simpl; [assumption|]. now rewrite IH.
  - unfold deref. simpl. unfold lookup_node. simpl. now rewrite Nat.eqb_refl.
Qed.

Lemma contents_get c n : Inv c -> In n (nodes c) -> get keqb (contents c) (nkey n) = Some (nval n).
Proof.
  intros H Hn. apply get_in.
  - rewrite map_fst_contents. apply inv_key, H.
  - change (nkey n, nval n) with (entry n). now apply in_map.
Qed.

Lemma touch_find c k : Inv c ->
  match a_touch keqb (contents c) k with
  | Some m => exists c', touch c (find keqb c k) = Ok c' /\ Inv c' /\
                         capacity c' = capacity c /\ contents c' = m
  | None => touch c (find keqb c k) = UB
  end.
Proof.
  intros H. unfold a_touch.
  destruct (get keqb (contents c) k) as [v|] eqn:Eg.
  - assert (Hg := Eg). apply get_in in Hg; [|rewrite map_fst_contents; apply inv_key, H].
    unfold contents in Hg. apply in_map_iff in Hg. destruct Hg as [n [He Hn]].
    unfold entry in He. injection He as Hk Hv.
    assert (Hf : find keqb c k = ItNode (addr n)).
    { unfold find. replace (map_find keqb (index c) k) with (Some (addr n)); [reflexivity|].
      symmetry. apply (inv_index _ H). eauto. }
    destruct (touch_node c n H Hn) as [c' [Ht [Hi [Hc [Hcont _]]]]].
    exists c'. rewrite Hf. split; [assumption|]. split; [assumption|]. split; [assumption|].
    rewrite Hcont. unfold entry. now rewrite Hk, Hv.
  - apply get_none in Eg. apply (find_mem c k H) in Eg. rewrite Eg. reflexivity.
Qed.

Lemma try_emplace_capacity (c : lru) k v : capacity (snd (try_emplace keqb c k v)) = capacity c.
Proof.
  unfold try_emplace. destruct (find keqb c k); [|reflexivity]. cbn [snd].
  destruct (Nat.ltb _ _); [|reflexivity]. destruct (rev _); reflexivity.
Qed.

Lemma step_refines c o : Inv c ->
  match a_step keqb (capacity c) (contents c) o with
  | Some m => exists c', step keqb c o = Ok c' /\ Inv c' /\ capacity c' = capacity c /\
                         contents c' = m
  | None => step keqb c o = UB
  end.
Proof.
  intros H. destruct o as [k v|k|]; cbn [a_step step].
  - eexists. split; [reflexivity|]. split; [now apply try_emplace_inv|].
    split; [apply try_emplace_capacity|]. now apply try_emplace_contents.
  - apply touch_find, H.
  - eexists. split; [reflexivity|]. split; [now apply inv_clear|]. split; reflexivity.
Qed.

Lemma run_refines os : forall (c : lru), Inv c ->
  match a_run keqb (capacity c) (contents c) os with
  | Some m => exists c', run keqb c os = Ok c' /\ Inv c' /\ capacity c' = capacity c /\
                         contents c' = m
  | None => run keqb c os = UB
  end.
Proof.
  induction os as [|o os IH]; intros c H; cbn [a_run run].
  - exists c. auto.
  - assert (Hs := step_refines c o H).
    destruct (a_step keqb (capacity c) (contents c) o) as [m|].
    + destruct Hs as [c' [-> [Hi [Hc <-]]]]. cbn [bind].
      specialize (IH c' Hi). rewrite Hc in IH.
      destruct (a_run keqb (capacity c) (contents c') os) as [m'|]; [|assumption].
      destruct IH as [c'' [Hr [Hi' [Hc' Hm]]]]. exists c''. rewrite Hc' . auto.
    + rewrite Hs. reflexivity.
Qed.

(** Reachable states. *)
Lemma run_inv cap os (c : lru) : run keqb (@empty K V cap) os = Ok c -> Inv c /\ capacity c = cap.
Proof.
  intros Hr. assert (Hs := run_refines os (empty cap) (inv_empty cap)).
  destruct (a_run keqb (capacity (empty cap)) (contents (empty cap)) os) as [m|].
  - destruct Hs as [c' [Hr' [Hi [Hc _]]]]. rewrite Hr' in Hr. injection Hr as <-. auto.
  - rewrite Hs in Hr. discriminate.
Qed.

Lemma size_bound cap os (c : lru) : run keqb (@empty K V cap) os = Ok c -> size c <= cap.
Proof. intros Hr. destruct (run_inv _ _ _ Hr) as [Hi <-]. apply inv_size, Hi. Qed.

Lemma find_correct cap os (c : lru) k : run keqb (@empty K V cap) os = Ok c ->
  match find keqb c k with
  | ItEnd => forall n, In n (nodes c) -> nkey n <> k
  | ItNode a => exists v, deref c (ItNode a) = Ok (k, v)
  end.
Proof.
  intros Hr. destruct (run_inv _ _ _ Hr) as [Hi _].
  destruct (find_present c k Hi) as [HE HN].
  destruct (find keqb c k) as [|a]; [auto|].
  destruct (HN a eq_refl) as [n [Hn [Hk Ha]]]. exists (nval n).
  unfold deref. replace (lookup_node (nodes c) a) with (Some n).
  - now rewrite Hk.
  - symmetry. apply lookup_node_in; [apply inv_addr, Hi|auto].
Qed.

(** try_emplace returns a usable iterator when the capacity is positive. *)
Lemma try_emplace_iterator c k v : Inv c -> 0 < capacity c ->
  let '((it, inserted), c') := try_emplace keqb c k v in
  (exists n, it = ItNode (addr n) /\ In n (nodes c') /\ nkey n = k /\
             nval n = match get keqb (contents c) k with Some v' => v' | None => v end) /\
  inserted = negb (mem keqb (contents c) k).
Proof.
  intros H Hcap.
  assert (Hc := try_emplace_contents c k v H).
  unfold try_emplace in *.
  destruct (find keqb c k) as [|a] eqn:Ef.
  - assert (Hm := proj1 (find_mem c k H) Ef).
    assert (Hg := proj2 (get_none (contents c) k) Hm).
    rewrite Hm, Hg. split; [|reflexivity].
    exists (mk_node (fresh c) k v). cbn [snd addr nkey nval] in *.
    destruct (Nat.ltb_spec (capacity c) (length (mk_node (fresh c) k v :: nodes c))) as [Hlt|Hge].
    + destruct (rev (mk_node (fresh c) k v :: nodes c)) as [|b r] eqn:Er.
      { split; [reflexivity|]. split; [now left|auto]. }
      unfold pop_back in *. assert (Hs := inv_size _ H). cbn [length] in Hlt.
      destruct (nodes c) as [|n1 l] eqn:En; [simpl in Hlt; lia|].
      change (removelast (mk_node (fresh c) k v :: n1 :: l))
        with (mk_node (fresh c) k v :: removelast (n1 :: l)) in *.
      split; [reflexivity|]. split; [now left|auto].
    + split; [reflexivity|]. split; [now left|auto].
  - destruct (find_present c k H) as [_ HN].
    destruct (HN a Ef) as [n [Hn [Hk Ha]]].
    assert (Hg := contents_get c n H Hn). rewrite Hk in Hg.
    rewrite Hg. split.
    + exists n. rewrite Ha. auto.
    + destruct (mem keqb (contents c) k) eqn:E; [reflexivity|].
      apply (find_mem c k H) in E. congruence.
Qed.

(** One use (try_emplace + touch). *)
Definition a_use (cap : nat) (m : acache K V) (k : K) (v : V) : acache K V :=
  firstn cap ((k, match get keqb m k with Some v' => v' | None => v end) :: without keqb m k).

Lemma without_absent (m : acache K V) k : mem keqb m k = false -> without keqb m k = m.
Proof.
  unfold mem, without. induction m as [|e m IH]; simpl; intros H; [reflexivity|].
  apply orb_false_iff in H. destruct H as [H1 H2]. rewrite H1. simpl. now rewrite IH.
Qed.

Lemma without_firstn_notin (m : acache K V) k n :
  mem keqb m k = false -> without keqb (firstn n m) k = firstn n m.
Proof.
  intros H. apply without_absent. revert H. unfold mem. revert n.
  induction m as [|e m IH]; intros [|n] H; simpl in *; try reflexivity.
  apply orb_false_iff in H. destruct H as [H1 H2]. rewrite H1. simpl. auto.
Qed.

Lemma without_length_le (m : acache K V) k : length (without keqb m k) <= length m.
Proof.
  unfold without. induction m as [|e m IH]; simpl; [lia|]. destruct (keqb k (fst e)); simpl; lia.
Qed.

Lemma without_length_lt (m : acache K V) k : mem keqb m k = true ->
  length (without keqb m k) < length m.
Proof.
  unfold mem, without. induction m as [|e m IH]; simpl; [easy|].
  destruct (keqb k (fst e)); simpl.
  - intros _. assert (H := without_length_le m k). unfold without in H. lia.
  - intros H. specialize (IH H). lia.
Qed.

Lemma use_correct c k v : Inv c -> 0 < capacity c ->
  exists c',
    use keqb c k v = Ok ((k, match get keqb (contents c) k with Some v' => v' | None => v end), c') /\
    Inv c' /\ capacity c' = capacity c /\ contents c' = a_use (capacity c) (contents c) k v.
Proof.
  intros H Hcap. unfold use.
  assert (Hi := try_emplace_iterator c k v H Hcap).
  assert (Hinv := try_emplace_inv c k v H).
  assert (Hcc := try_emplace_capacity c k v).
  assert (Hcont := try_emplace_contents c k v H).
  destruct (try_emplace keqb c k v) as [[it ins] c1]. cbn [snd] in *.
  destruct Hi as [[n [-> [Hn [Hk Hv]]]] _].
  destruct (touch_node c1 n Hinv Hn) as [c2 [Ht [Hi2 [Hc2 [Hcont2 Hd2]]]]].
  exists c2. rewrite Ht. cbn [bind]. rewrite Hd2. cbn [bind].
  unfold entry. rewrite Hk, Hv. split; [reflexivity|]. split; [assumption|].
  split; [congruence|]. rewrite Hcont2, Hcont. unfold entry. rewrite Hk, Hv.
  unfold a_use, a_emplace.
  destruct (mem keqb (contents c) k) eqn:Em.
  - rewrite firstn_all2; [reflexivity|]. cbn [length].
    assert (Hl := without_length_lt _ _ Em). rewrite length_contents in Hl.
    assert (Hs := inv_size _ H). lia.
  - destruct (capacity c) as [|cap]; [lia|]. cbn [firstn].
    f_equal. unfold without at 1. cbn [filter fst]. rewrite keqb_refl. cbn [negb].
    fold (without keqb (firstn cap (contents c)) k).
    rewrite without_firstn_notin by assumption.
    now rewrite without_absent by assumption.
Qed.

(** The cached keys are the most recent distinct ones of the history. *)
Lemma filter_filter_comm {A} (f g : A -> bool) l :
  filter f (filter g l) = filter g (filter f l).
Proof.
  induction l as [|x l IH]; simpl; [reflexivity|].
  destruct (f x) eqn:Ef, (g x) eqn:Eg; simpl; rewrite ?Ef, ?Eg, IH; reflexivity.
Qed.

Lemma distinct_nodup h : NoDup (distinct keqb h).
Proof.
  induction h as [|k h IH]; simpl; constructor.
  - intros Hin. apply filter_In in Hin. rewrite keqb_refl in Hin. destruct Hin; discriminate.
  - now apply NoDup_filter.
Qed.

Lemma map_fst_without (m : acache K V) k :
  map fst (without keqb m k) = filter (fun k' => negb (keqb k k')) (map fst m).
Proof.
  unfold without. induction m as [|e m IH]; simpl; [reflexivity|].
  destruct (keqb k (fst e)); simpl; [assumption|]. now rewrite IH.
Qed.

(** Removing one element of a duplicate-free list and cutting at [n]: cutting at [S n] first makes no
    difference. *)
Lemma firstn_filter_firstn k n : forall (l : list K), NoDup l ->
  firstn n (filter (fun k' => negb (keqb k k')) (firstn (S n) l)) =
  firstn n (filter (fun k' => negb (keqb k k')) l).
Proof.
  induction n as [|n IH]; intros l Hnd; [reflexivity|].
  destruct l as [|x l]; [reflexivity|].
  inversion Hnd as [|? ? Hx Hl]; subst.
  rewrite firstn_cons. cbn [filter].
  destruct (keqb k x) eqn:E; cbn [negb].
  - apply keqb_spec in E. subst x.
    assert (Hf : forall l', ~ In k l' -> filter (fun k' => negb (keqb k k')) l' = l').
    { induction l' as [|y l' IHl]; simpl; intros Hni; [reflexivity|].
      rewrite (proj2 (keqb_neq k y)) by (intros ->; apply Hni; now left).
      simpl. rewrite IHl; [reflexivity|]. tauto. }
    rewrite (Hf l) by assumption. rewrite Hf.
    + now rewrite firstn_firstn, Nat.min_id.
    + intros Hin. apply Hx. rewrite <- (firstn_skipn (S n) l). apply in_or_app. now left.
  - rewrite !firstn_cons. f_equal. now apply IH.
Qed.

Lemma run_uses_app us u (c : lru) :
  run_uses keqb c (us ++ [u]) =
  bind (run_uses keqb c us) (fun c' => bind (use keqb c' (fst u) (snd u)) (fun r => Ok (snd r))).
Proof.
  revert c. induction us as [|[k v] us IH]; intros c; simpl.
  - destruct u as [k v]. reflexivity.
  - destruct (use keqb c k v) as [r| |]; [|reflexivity|reflexivity]. simpl. apply IH.
Qed.

Lemma run_uses_keys cap (us : list (K * V)) : 0 < cap ->
  exists c, run_uses keqb (empty cap) us = Ok c /\ Inv c /\ capacity c = cap /\
            map fst (contents c) = firstn cap (distinct keqb (rev (map fst us))).
Proof.
  intros Hcap. induction us as [|u us IH] using rev_ind.
  - exists (empty cap). simpl. split; [reflexivity|]. split; [apply inv_empty|].
    split; [reflexivity|]. now rewrite firstn_nil.
  - destruct IH as [c [Hr [Hi [Hc Hk]]]]. rewrite run_uses_app, Hr. cbn [bind].
    destruct (use_correct c (fst u) (snd u) Hi) as [c' [Hu [Hi' [Hc' Hcont]]]]; [lia|].
    rewrite Hu. cbn [bind snd]. exists c'. split; [reflexivity|]. split; [assumption|].
    split; [lia|]. rewrite Hcont. unfold a_use.
    rewrite map_app, rev_app_distr. simpl rev. cbn [app distinct].
    rewrite Hc. destruct cap as [|cap]; [lia|]. cbn [firstn map fst].
    f_equal. rewrite <- firstn_map, map_fst_without, Hk.
    apply firstn_filter_firstn. apply distinct_nodup.
Qed.

Lemma run_from_empty cap (os : list (op K V)) :
  match a_run keqb cap [] os with
  | Some m => exists c, run keqb (empty cap) os = Ok c /\ contents c = m
  | None => run keqb (empty cap) os = UB
  end.
Proof.
  assert (H := run_refines os (empty cap) (inv_empty cap)).
  change (capacity (@empty K V cap)) with cap in H.
  change (contents (empty cap)) with (@nil (K * V)) in H.
  destruct (a_run keqb cap [] os) as [m|]; [|exact H].
  destruct H as [c [Hr [_ [_ Hc]]]]. eauto.
Qed.

Lemma uses_keys cap (us : list (K * V)) : 0 < cap ->
  exists c, run_uses keqb (empty cap) us = Ok c /\
            map nkey (nodes c) = firstn cap (distinct keqb (rev (map fst us))).
Proof.
  intros Hcap. destruct (run_uses_keys cap us Hcap) as [c [Hr [_ [_ Hk]]]].
  exists c. split; [assumption|]. rewrite <- Hk. symmetry. apply map_fst_contents.
Qed.

Lemma use_returns cap (us : list (K * V)) c k v : 0 < cap ->
  run_uses keqb (empty cap) us = Ok c ->
  exists c' v', use keqb c k v = Ok ((k, v'), c') /\
    ((exists n, In n (nodes c) /\ nkey n = k /\ nval n = v') \/
     ((forall n, In n (nodes c) -> nkey n <> k) /\ v' = v)).
Proof.
  intros Hcap Hr. destruct (run_uses_keys cap us Hcap) as [c0 [Hr0 [Hi [Hc _]]]].
  rewrite Hr0 in Hr. injection Hr as <-.
  destruct (use_correct c0 k v Hi) as [c' [Hu _]]; [lia|].
  exists c'. eexists. split; [exact Hu|].
  destruct (get keqb (contents c0) k) as [v'|] eqn:Eg.
  - left. apply get_in in Eg; [|rewrite map_fst_contents; apply inv_key, Hi].
    unfold contents in Eg. apply in_map_iff in Eg. destruct Eg as [n [He Hn]].
    unfold entry in He. injection He as Hk Hv. eauto.
  - right. split; [|reflexivity]. apply get_none in Eg.
    apply (find_mem c0 k Hi) in Eg. apply (proj1 (find_present c0 k Hi) Eg).
Qed.

End P.

Lemma zero_capacity_ub : exists (k v : nat), use Nat.eqb (empty 0) k v = UB.
Proof. exists 1, 10. reflexivity. Qed.
