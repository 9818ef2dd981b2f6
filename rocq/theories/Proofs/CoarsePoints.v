From Coq Require Import List Arith Bool Lia Permutation.
From Verif Require Import Model.Outcome Model.DomainDivider Spec.DomainDivider Proofs.DomainDivider Proofs.LatticeVertices.
Import ListNotations.

Section Coarse.
Variable dim : nat.
Hypothesis DIM : 1 <= dim <= 3.
Variable arrange : list mixed -> list mixed.
Hypothesis ARR : reorders arrange.
Variable nearest : list mixed -> nat.
Hypothesis NEAR : in_range nearest.
Notation mlt := (mult dim).

Lemma initialize_spec : forall level ps, ps <> [] -> exists c, initialize arrange nearest level ps = Ok c /\
  c_level c = level /\ Permutation (c_points c) ps /\ In (c_center c) (c_points c).
Proof.
  intros level ps NE. unfold initialize. pose proof (NEAR ps NE) as L. destruct (nth_error ps (nearest ps)) as [c|] eqn:C.
  - exists (Cluster level c (arrange ps)). cbn. split; [auto|]. split; [auto|]. split; [apply ARR|].
    apply (Permutation_in _ (Permutation_sym (ARR ps))). apply nth_error_In in C. auto.
  - apply nth_error_None in C. lia.
Qed.

(** ** Where a cluster is split *)
Lemma middle_lt : forall ps, ps <> [] -> middle dim ps < length ps.
Proof.
  intros ps NE. unfold middle. set (pre := prefix dim 0 ps). set (tot := last pre 0).
  assert (forall is b, b < length ps -> (forall i, In i is -> i < length ps) ->
    fold_left (fun best i => if before pre tot i best then i else best) is b < length ps) as G.
  { induction is as [|i is IH]; intros b B H; cbn; auto. apply IH; [destruct (before _ _ _ _); [apply H; left|]; auto|intros j J; apply H; right; auto]. }
  apply G; [destruct ps; [congruence|cbn; lia]|]. intros i I. apply in_seq in I. lia.
Qed.
Lemma prefix_last : forall ps acc, last (prefix dim acc ps) 0 = acc + total dim ps.
Proof.
  induction ps as [|p ps IH]; intros acc; [cbn; unfold total; cbn; lia|]. cbn [prefix]. destruct (prefix dim (acc + mlt p) ps) as [|y l] eqn:E.
  - destruct ps; discriminate.
  - cbn [last]. change (match l with [] => y | _ :: _ => last l 0 end) with (last (y :: l) 0). rewrite <- E, IH. unfold total. cbn. lia.
Qed.
Lemma total_pos : forall ps, length ps <= total dim ps.
Proof. induction ps as [|p ps IH]; unfold total in *; cbn; [lia|]. pose proof (mult_bounds dim DIM p). lia. Qed.
Lemma middle_pos : forall ps, 2 <= length ps -> 1 <= middle dim ps.
Proof.
  intros ps L. unfold middle. set (pre := prefix dim 0 ps). set (tot := last pre 0).
  destruct (length ps - 1) as [|n] eqn:N; [lia|]. cbn [seq fold_left].
  assert (before pre tot 1 0 = true) as B.
  { unfold before, gap. assert (nth 0 pre 0 = 0) as -> by (unfold pre; rewrite prefix_nth by (auto; lia); reflexivity).
    assert (nth 1 pre 0 = total dim (firstn 1 ps)) as -> by (unfold pre; rewrite prefix_nth by (auto; lia); reflexivity).
    assert (tot = total dim ps) as -> by (unfold tot, pre; rewrite prefix_last; lia).
    destruct ps as [|p [|q ps]]; cbn [length] in L; try lia. unfold total. cbn [firstn map sumn].
    pose proof (mult_bounds dim DIM p). pose proof (mult_bounds dim DIM q). apply orb_true_iff. left. apply Nat.ltb_lt. lia. }
  rewrite B. assert (forall is b, 1 <= b -> (forall i, In i is -> 1 <= i) -> 1 <= fold_left (fun best i => if before pre tot i best then i else best) is b) as G.
  { induction is as [|i is IH]; intros b Hb H; cbn; auto. apply IH; [destruct (before pre tot i b); [apply H; left; reflexivity|exact Hb]|intros j J; apply H; right; exact J]. }
  apply G; auto. intros i I. apply in_seq in I. lia.
Qed.

(** ** The queue *)
Definition csize (q : list cluster) : nat := sumn (map (fun c => mlt (c_center c)) q).
Definition queue (ps : list mixed) (q : list cluster) : Prop :=
  Permutation (flat_map c_points q) ps /\ Forall (fun c => In (c_center c) (c_points c)) q.
Lemma csize_perm : forall a b, Permutation a b -> csize a = csize b.
Proof. intros a b P. unfold csize. induction P; cbn [map sumn] in *; lia. Qed.
Lemma queue_perm : forall ps a b, Permutation a b -> queue ps a -> queue ps b.
Proof.
  intros ps a b P [Q1 Q2]. split.
  - rewrite <- Q1. apply Permutation_flat_map, Permutation_sym. auto.
  - rewrite Forall_forall in *. intros c C. apply Q2. apply (Permutation_in _ (Permutation_sym P)). auto.
Qed.
Lemma without_perm : forall (A : Type) (q : list A) i c, nth_error q i = Some c -> Permutation q (c :: without i q).
Proof.
  intros A q i c H. apply nth_error_split in H. destruct H as (a & b & -> & <-). unfold without.
  rewrite firstn_app, Nat.sub_diag, firstn_all. cbn [firstn]. rewrite app_nil_r.
  replace (skipn (S (length a)) (a ++ c :: b)) with b; [apply Permutation_sym, Permutation_middle|].
  rewrite skipn_app, skipn_all2 by lia. replace (S (length a) - length a) with 1 by lia. reflexivity.
Qed.
Lemma csize_total : forall ps q, queue ps q -> csize q <= total dim ps.
Proof.
  intros ps q [P F]. rewrite <- (total_perm dim DIM _ _ P). clear P. induction F as [|c q I F IH]; [unfold csize, total; cbn; lia|].
  cbn [flat_map]. rewrite total_app. unfold csize in *. cbn [map sumn].
  assert (mlt (c_center c) <= total dim (c_points c)); [|lia].
  apply in_split in I. destruct I as (a & b & ->). rewrite total_app. unfold total. cbn. lia.
Qed.

Lemma push_spec : forall ps size level rest, ps <> [] -> exists c, push dim arrange nearest size level ps rest = Ok (size + mlt (c_center c), c :: rest) /\
  c_level c = level /\ Permutation (c_points c) ps /\ In (c_center c) (c_points c).
Proof.
  intros ps size level rest NE. unfold push. destruct ps as [|p ps]; [congruence|].
  destruct (initialize_spec level (p :: ps) NE) as (c & -> & H). cbn [bind]. exists c. auto.
Qed.

(** One step: a cluster of one point comes back with a new level, a larger one is divided. *)
Lemma split_step : forall M ps q c rest size level, (forall p, In p ps -> mlt p <= M) -> queue ps q -> Permutation q (c :: rest) -> size = csize q ->
  exists q', (let* s := push dim arrange nearest (size - mlt (c_center c)) level (firstn (middle dim (c_points c)) (c_points c)) rest in
     push dim arrange nearest (fst s) level (skipn (middle dim (c_points c)) (c_points c)) (snd s)) = Ok (csize q', q') /\ queue ps q' /\
  csize q' + 1 <= size + 2 * M /\
  ((length (c_points c) <= 1 /\ exists c', q' = c' :: rest /\ c_level c' = level) \/ (2 <= length (c_points c) /\ length q' = S (length q))).
Proof.
  intros M ps q c rest size level MM Q P SZ. pose proof (queue_perm _ _ _ P Q) as [Q1 Q2]. inversion Q2 as [|? ? IC Q3]; subst.
  rewrite (csize_perm _ _ P). assert (csize (c :: rest) = mlt (c_center c) + csize rest) as -> by reflexivity.
  replace (mlt (c_center c) + csize rest - mlt (c_center c)) with (csize rest) by lia.
  assert (c_points c <> []) as NE by (intros E; rewrite E in IC; destruct IC).
  pose proof (middle_lt _ NE) as ML. pose proof (mult_bounds dim DIM (c_center c)) as MB.
  set (k := middle dim (c_points c)) in *. cbn [flat_map] in Q1.
  assert (forall x, In x (c_points c) -> mlt x <= M) as MC by (intros x X; apply MM; apply (Permutation_in _ Q1); apply in_app_iff; auto).
  assert (skipn k (c_points c) <> []) as NR. { intros E. apply (f_equal (@length _)) in E. rewrite skipn_length in E. cbn in E. lia. }
  destruct (Nat.le_gt_cases (length (c_points c)) 1) as [L1|L2].
  - assert (k = 0) as K0 by lia. rewrite K0. cbn [firstn skipn push bind fst snd].
    destruct (push_spec (c_points c) (csize rest) level rest NE) as (c' & -> & LV & PP & IP).
    exists (c' :: rest). pose proof (MC (c_center c') (Permutation_in _ PP IP)) as MB'. split; [f_equal; f_equal; unfold csize; cbn; lia|]. split.
    + split; [cbn; rewrite PP; auto|constructor; auto].
    + split; [unfold csize; cbn; lia|]. left. split; auto. exists c'. auto.
  - pose proof (middle_pos (c_points c) ltac:(lia)) as MP. fold k in MP.
    assert (firstn k (c_points c) <> []) as NL. { intros E. apply (f_equal (@length _)) in E. rewrite firstn_length in E. cbn in E. lia. }
    destruct (push_spec (firstn k (c_points c)) (csize rest) level rest NL) as (c1 & -> & LV1 & PP1 & IP1). cbn [bind fst snd].
    destruct (push_spec (skipn k (c_points c)) (csize rest + mlt (c_center c1)) level (c1 :: rest) NR) as (c2 & -> & LV2 & PP2 & IP2).
    exists (c2 :: c1 :: rest). 
    assert (forall l x, incl l (c_points c) -> In x l -> mlt x <= M) as MI by (intros l x IL X; apply MC, IL, X).
    pose proof (MI (firstn k (c_points c)) (c_center c1) ltac:(intros x X; rewrite <- (firstn_skipn k (c_points c)); apply in_app_iff; auto) (Permutation_in _ PP1 IP1)).
    pose proof (MI (skipn k (c_points c)) (c_center c2) ltac:(intros x X; rewrite <- (firstn_skipn k (c_points c)); apply in_app_iff; auto) (Permutation_in _ PP2 IP2)).
    split; [f_equal; f_equal; unfold csize; cbn; lia|]. split.
    + split; [|constructor; auto]. cbn [flat_map]. rewrite <- Q1. rewrite PP1, PP2, app_assoc. apply Permutation_app_tail.
      rewrite Permutation_app_comm, firstn_skipn. auto.
    + split; [unfold csize; cbn; lia|]. right. split; [lia|]. apply Permutation_length in P. cbn in *. lia.
Qed.

Section Loop.
Variable pick : list cluster -> nat.
Variable level_read : cluster -> list cluster -> nat.
Notation loop := (coarse_loop dim arrange nearest pick false level_read).

Lemma loop_sound : (forall q, q <> [] -> pick q < length q) -> forall M ps, (forall p, In p ps -> mlt p <= M) ->
  forall fuel wanted q size, queue ps q -> q <> [] -> size = csize q -> size <= Nat.max M (wanted + 2 * M - 2) ->
  match loop fuel wanted size q with
  | Some (Ok q') => queue ps q' /\ wanted <= csize q' <= Nat.max M (wanted + 2 * M - 2)
  | Some _ => False
  | None => True
  end.
Proof.
  intros PK M ps MM. induction fuel as [|fuel IH]; intros wanted q size Q NE SZ B; cbn [coarse_loop].
  - destruct (Nat.leb_spec wanted size); auto. subst. auto.
  - destruct (Nat.leb_spec wanted size) as [|LT]; [subst; auto|]. pose proof (PK q NE) as L.
    destruct (nth_error q (pick q)) as [c|] eqn:C; [|apply nth_error_None in C; lia].
    destruct (split_step M ps q c (without (pick q) q) size (S (level_read c (without (pick q) q))) MM Q (without_perm _ _ _ _ C) SZ) as (q' & -> & Q' & SB & CA).
    cbn [fst snd]. apply IH; auto; [|lia]. intros ->. destruct CA as [(_ & c' & E & _)|(_ & E)]; discriminate.
Qed.

Lemma loop_more : forall fuel fuel' wanted size q r, loop fuel wanted size q = Some r -> fuel <= fuel' -> loop fuel' wanted size q = Some r.
Proof.
  induction fuel as [|fuel IH]; intros fuel' wanted size q r H L.
  - destruct fuel'; cbn [coarse_loop] in *; destruct (wanted <=? size); auto; discriminate.
  - destruct fuel' as [|fuel']; [lia|]. cbn [coarse_loop] in *. destruct (wanted <=? size); auto. destruct (nth_error q (pick q)); auto.
    destruct (bind _ _) as [s|e|]; auto. apply IH; auto. lia.
Qed.

(** More rows than there are: for ever. *)
Lemma loop_endless : (forall q, q <> [] -> pick q < length q) -> forall fuel wanted ps q size, queue ps q -> q <> [] -> size = csize q ->
  total dim ps < wanted -> loop fuel wanted size q = None.
Proof.
  intros PK. induction fuel as [|fuel IH]; intros wanted ps q size Q NE SZ W; cbn [coarse_loop]; pose proof (csize_total _ _ Q) as CT.
  - destruct (Nat.leb_spec wanted size); [lia|auto].
  - destruct (Nat.leb_spec wanted size) as [|LT]; [lia|]. pose proof (PK q NE) as L.
    destruct (nth_error q (pick q)) as [c|] eqn:C; [|apply nth_error_None in C; lia].
    destruct (split_step dim ps q c (without (pick q) q) size (S (level_read c (without (pick q) q))) (fun p _ => proj2 (mult_bounds dim DIM p)) Q (without_perm _ _ _ _ C) SZ) as (q' & -> & Q' & SB & CA).
    cbn [fst snd]. apply (IH _ ps); auto. intros ->. destruct CA as [(_ & c' & E & _)|(_ & E)]; discriminate.
Qed.

(** ** Termination, if levels are read as intended *)
Hypothesis TOPS : tops pick.
Hypothesis LEVEL : forall c rest, level_read c rest = c_level c.
Definition rank (B : nat) (q : list cluster) : nat := sumn (map (fun c => S B - c_level c) q).
Lemma rank_perm : forall B a b, Permutation a b -> rank B a = rank B b.
Proof. intros B a b P. unfold rank. induction P; cbn [map sumn] in *; lia. Qed.
Lemma singles_total : forall ps q, queue ps q -> Forall (fun c => length (c_points c) <= 1) q -> csize q = total dim ps.
Proof.
  intros ps q [P F] S. rewrite <- (total_perm dim DIM _ _ P). clear P. induction F as [|c q I F IH]; [reflexivity|]. inversion S as [|? ? L S']; subst.
  cbn [flat_map]. rewrite total_app, <- IH by auto. unfold csize. cbn [map sumn].
  destruct (c_points c) as [|x [|y l]]; cbn in L; try lia; [destruct I|]. destruct I as [->|[]]. unfold total. cbn. lia.
Qed.
Lemma queue_length : forall ps q, queue ps q -> length q <= length ps.
Proof.
  intros ps q [P F]. rewrite <- (Permutation_length P). clear P. induction F as [|c q I F IH]; cbn; [lia|]. rewrite app_length.
  destruct (c_points c); [destruct I|cbn; lia].
Qed.
Lemma loop_ends : forall n wanted ps q, queue ps q -> q <> [] -> length ps - length q <= n -> wanted <= total dim ps ->
  exists fuel r, loop fuel wanted (csize q) q = Some r.
Proof.
  induction n as [n IH] using (well_founded_induction Wf_nat.lt_wf). intros wanted ps q Q NE LN W.
  destruct (Forall_Exists_dec (fun c => length (c_points c) <= 1) (fun c => Compare_dec.le_dec _ _) q) as [S|S].
  { rewrite (singles_total _ _ Q S). exists 0. cbn [coarse_loop]. destruct (Nat.leb_spec wanted (total dim ps)); [eauto|lia]. }
  apply Exists_exists in S. destruct S as (cm & IM & LM). remember (rank (c_level cm) q) as m eqn:RM.
  revert q Q NE LN IM RM. induction m as [m IHm] using (well_founded_induction Wf_nat.lt_wf). intros q Q NE LN IM RM.
  destruct (Nat.leb_spec wanted (csize q)) as [WE|WL].
  { exists 0. cbn [coarse_loop]. destruct (Nat.leb_spec wanted (csize q)); [eauto|lia]. }
  destruct (TOPS q NE) as (c & C & MIN). pose proof (without_perm _ _ _ _ C) as WP.
  destruct (split_step dim ps q c (without (pick q) q) (csize q) (S (level_read c (without (pick q) q))) (fun p _ => proj2 (mult_bounds dim DIM p)) Q WP eq_refl) as (q' & EQ & Q' & SB & CA).
  assert (q' <> []) as NE' by (intros ->; destruct CA as [(_ & c' & E & _)|(_ & E)]; discriminate).
  assert (exists fuel r, loop fuel wanted (csize q') q' = Some r) as (fuel & r & H).
  { destruct CA as [(L1 & c' & -> & LV)|(L2 & LQ)].
    - apply (IHm (rank (c_level cm) (c' :: without (pick q) q))); auto.
      + rewrite RM, (rank_perm _ _ _ WP). unfold rank. cbn [map sumn]. rewrite LV, LEVEL. pose proof (MIN cm IM). lia.
      + apply Permutation_length in WP. cbn in *. lia.
      + apply (Permutation_in _ WP) in IM. destruct IM as [->|IM]; [lia|right; auto].
    - pose proof (queue_length _ _ Q'). apply (IH (length ps - length q')) with (ps := ps); auto. lia. }
  exists (S fuel), r. cbn [coarse_loop]. destruct (Nat.leb_spec wanted (csize q)); [lia|]. rewrite C, EQ. exact H.
Qed.
End Loop.

(** ** The selection *)
Lemma centers_unique : forall (q : list cluster), NoDup (flat_map c_points q) -> Forall (fun c => In (c_center c) (c_points c)) q -> NoDup (map c_center q).
Proof.
  intros q ND F. induction F as [|c q I F IH]; cbn; constructor.
  - intros X. apply in_map_iff in X. destruct X as (c' & E & C). cbn in ND.
    assert (In (c_center c) (flat_map c_points q)) as Y. { apply in_flat_map. exists c'. split; auto. rewrite <- E. rewrite Forall_forall in F. auto. }
    apply in_split in I. destruct I as (a & b & E'). rewrite E', <- app_assoc in ND. apply NoDup_remove_2 in ND. apply ND. rewrite !in_app_iff. cbn. rewrite !in_app_iff in *. auto.
  - apply IH. cbn in ND. clear - ND. induction (c_points c) as [|x l IH]; auto. apply IH. inversion ND; auto.
Qed.
Lemma candidates_nodup : forall pts grads poly, NoDup pts -> NoDup grads -> NoDup (candidates pts grads poly).
Proof.
  intros pts grads poly NP NG. unfold candidates. apply NoDup_app.
  - apply FinFun.Injective_map_NoDup; [intros a b E; injection E; auto|apply NoDup_filter; auto].
  - apply FinFun.Injective_map_NoDup; [intros a b E; injection E; auto|auto].
  - intros x X Y. apply in_map_iff in X. apply in_map_iff in Y. destruct X as (a & <- & _), Y as (b & E & _). discriminate.
Qed.
Lemma total_candidates : forall pts grads poly, total dim (candidates pts grads poly) = rows dim pts grads poly.
Proof.
  intros pts grads poly. unfold candidates, rows. rewrite total_app. unfold total. rewrite !map_map.
  assert (forall (l : list nat) c, sumn (map (fun _ => c) l) = c * length l) as H. { intros l c. induction l as [|x l IH]; cbn; [lia|rewrite IH; lia]. }
  change (fun x : nat => mult dim {| x_index := x; x_inner := true; x_grad := false |}) with (fun _ : nat => 1).
  change (fun x : nat => mult dim {| x_index := x; x_inner := true; x_grad := true |}) with (fun _ : nat => dim). rewrite !H. lia.
Qed.
Lemma candidate_in : forall pts grads poly p, In p (candidates pts grads poly) ->
  if x_grad p then In (x_index p) grads else In (x_index p) pts /\ ~ In (x_index p) poly.
Proof.
  intros pts grads poly p H. unfold candidates in H. apply in_app_iff in H. destruct H as [H|H]; apply in_map_iff in H; destruct H as (i & <- & H); cbn; auto.
  apply filter_In in H. destruct H as [H N]. split; auto. intros X. rewrite negb_true_iff in N. assert (existsb (Nat.eqb i) poly = true); [|congruence].
  apply existsb_exists. exists i. split; auto. apply Nat.eqb_refl.
Qed.
Lemma split_rows : forall cs : list mixed, sumn (map mlt cs) = length (filter (fun p => negb (x_grad p)) cs) + dim * length (filter x_grad cs).
Proof. induction cs as [|c cs IH]; cbn [map sumn filter length]; [lia|]. rewrite IH. unfold mult. destruct (x_grad c); cbn [negb length]; lia. Qed.

Section Choice.
Variable pick : list cluster -> nat.
Hypothesis PICK : forall q, q <> [] -> pick q < length q.
Variable level_read : cluster -> list cluster -> nat.
Variable drain : list cluster -> list cluster.
Hypothesis DRAIN : forall q, Permutation (drain q) q.
Notation choose := (choose_coarse_points dim arrange nearest pick).

Lemma start_queue : forall pts grads poly c, initialize arrange nearest 0 (candidates pts grads poly) = Ok c ->
  queue (candidates pts grads poly) [c] /\ csize [c] = mlt (c_center c).
Proof.
  intros pts grads poly c E. destruct (candidates pts grads poly) as [|x l] eqn:EC; [unfold initialize in E; destruct (nth_error [] _) eqn:X; [destruct (nearest []); discriminate|discriminate]|].
  destruct (initialize_spec 0 (x :: l) ltac:(discriminate)) as (c' & E' & _ & P & I). rewrite E in E'. injection E' as <-.
  split; [split; [cbn; rewrite app_nil_r; auto|constructor; auto]|]. unfold csize. cbn. lia.
Qed.

Theorem choose_sound : forall fuel pts grads poly wanted, NoDup pts -> NoDup grads -> NoDup poly -> candidates pts grads poly <> [] ->
  match choose false level_read drain fuel pts grads poly wanted with
  | Some (Ok (idcs, gidcs)) => selection dim pts grads poly wanted idcs gidcs
  | Some _ => False
  | None => True
  end.
Proof.
  intros fuel pts grads poly wanted NP NG NO NE. unfold choose_coarse_points. fold (candidates pts grads poly).
  destruct (initialize_spec 0 _ NE) as (c & EI & _). rewrite EI. destruct (start_queue _ _ _ _ EI) as [Q SZ].
  assert (forall p, In p (candidates pts grads poly) -> mlt p <= most dim grads) as MM.
  { intros p P. pose proof (candidate_in _ _ _ _ P) as CI. unfold mult, most. destruct (x_grad p); destruct grads; try lia. destruct CI. }
  assert (mlt (c_center c) <= most dim grads) as MB.
  { apply MM. destruct Q as [QP QF]. apply (Permutation_in _ QP). cbn. apply in_app_iff. left. inversion QF. auto. }
  pose proof (loop_sound pick level_read PICK _ _ MM fuel wanted [c] (mlt (c_center c)) Q ltac:(discriminate) (eq_sym SZ) ltac:(lia)) as LS.
  destruct (coarse_loop _ _ _ _ _ _ fuel wanted (mlt (c_center c)) [c]) as [[q|e|]|]; auto.
  destruct LS as ([QP QF] & W). set (cs := map c_center (drain q)).
  assert (Permutation cs (map c_center q)) as PC by (apply Permutation_map, DRAIN).
  assert (NoDup cs) as NC.
  { apply (Permutation_NoDup (Permutation_sym PC)). apply centers_unique; auto. apply (Permutation_NoDup (Permutation_sym QP)). apply candidates_nodup; auto. }
  assert (forall p, In p cs -> In p (candidates pts grads poly)) as IC.
  { intros p P. apply (Permutation_in _ PC) in P. apply in_map_iff in P. destruct P as (c' & <- & C'). apply (Permutation_in _ QP).
    apply in_flat_map. exists c'. split; auto. rewrite Forall_forall in QF. auto. }
  assert (forall g, NoDup (map x_index (filter (fun p => Bool.eqb (x_grad p) g) cs))) as NI.
  { intros g. clear - NC IC. assert (forall p, In p cs -> x_inner p = true) as IN.
    { intros p P. apply IC in P. unfold candidates in P. apply in_app_iff in P. destruct P as [P|P]; apply in_map_iff in P; destruct P as (i & <- & _); auto. }
    clear IC. induction NC as [|p l NP NC IH]; cbn; [constructor|]. destruct (Bool.eqb (x_grad p) g) eqn:EG; cbn; [|apply IH; intros x X; apply IN; right; auto].
    constructor; [|apply IH; intros x X; apply IN; right; auto]. intros X. apply in_map_iff in X. destruct X as (p' & E & P'). apply filter_In in P'. destruct P' as [P' EG'].
    apply NP. apply Bool.eqb_prop in EG. apply Bool.eqb_prop in EG'. pose proof (IN p (or_introl eq_refl)). pose proof (IN p' (or_intror P')).
    destruct p, p'. cbn in *. subst. auto. }
  assert (filter (fun p => Bool.eqb (x_grad p) false) cs = filter (fun p => negb (x_grad p)) cs) as F0 by (apply filter_ext; intros [i b []]; auto).
  assert (filter (fun p => Bool.eqb (x_grad p) true) cs = filter x_grad cs) as F1 by (apply filter_ext; intros [i b []]; auto).
  exists (map x_index (filter (fun p => negb (x_grad p)) cs)). split; [auto|]. split.
  { apply NoDup_app; auto; [rewrite <- F0; apply NI|]. intros x X Y. apply in_map_iff in Y. destruct Y as (p & <- & Y). apply filter_In in Y. destruct Y as [Y G].
    pose proof (candidate_in _ _ _ _ (IC _ Y)) as CI. apply negb_true_iff in G. rewrite G in CI. tauto. }
  split; [rewrite <- F1; apply NI|]. split.
  { intros x X. apply in_map_iff in X. destruct X as (p & <- & Y). apply filter_In in Y. destruct Y as [Y G].
    pose proof (candidate_in _ _ _ _ (IC _ Y)) as CI. apply negb_true_iff in G. rewrite G in CI. tauto. }
  split.
  { intros x X. apply in_map_iff in X. destruct X as (p & <- & Y). apply filter_In in Y. destruct Y as [Y G].
    pose proof (candidate_in _ _ _ _ (IC _ Y)) as CI. rewrite G in CI. auto. }
  rewrite !map_length, <- split_rows. assert (sumn (map mlt cs) = csize q) as ->; [|auto].
  pose proof (total_perm dim DIM _ _ PC) as TP. unfold total in TP. rewrite TP, map_map. reflexivity.
Qed.

Theorem choose_endless : forall fuel pts grads poly wanted, candidates pts grads poly <> [] -> rows dim pts grads poly < wanted ->
  choose false level_read drain fuel pts grads poly wanted = None.
Proof.
  intros fuel pts grads poly wanted NE W. unfold choose_coarse_points. fold (candidates pts grads poly).
  destruct (initialize_spec 0 _ NE) as (c & EI & _). rewrite EI. destruct (start_queue _ _ _ _ EI) as [Q SZ].
  rewrite (loop_endless pick level_read PICK fuel wanted _ [c] (mlt (c_center c)) Q ltac:(discriminate) (eq_sym SZ)); auto. rewrite total_candidates. auto.
Qed.

(** Every call that has to split a cluster reads through the reference after the pop. *)
Theorem choose_strict : forall fuel pts grads poly wanted, candidates pts grads poly <> [] -> dim < wanted -> 0 < fuel ->
  choose true level_read drain fuel pts grads poly wanted = Some UB.
Proof.
  intros fuel pts grads poly wanted NE W F. unfold choose_coarse_points. fold (candidates pts grads poly).
  destruct (initialize_spec 0 _ NE) as (c & EI & _). rewrite EI. destruct fuel as [|fuel]; [lia|]. cbn [coarse_loop].
  pose proof (mult_bounds dim DIM (c_center c)). destruct (Nat.leb_spec wanted (mlt (c_center c))); [lia|].
  pose proof (PICK [c] ltac:(discriminate)) as P. cbn in P. replace (pick [c]) with 0 by lia. reflexivity.
Qed.
End Choice.

Theorem choose_ends : forall pick level_read drain pts grads poly wanted, tops pick -> (forall c rest, level_read c rest = c_level c) ->
  candidates pts grads poly <> [] -> wanted <= rows dim pts grads poly ->
  exists fuel0 r, forall fuel, fuel0 <= fuel -> choose_coarse_points dim arrange nearest pick false level_read drain fuel pts grads poly wanted = Some r.
Proof.
  intros pick level_read drain pts grads poly wanted T LV NE W. unfold choose_coarse_points. fold (candidates pts grads poly).
  destruct (initialize_spec 0 _ NE) as (c & EI & _). rewrite EI. destruct (start_queue _ _ _ _ EI) as [Q SZ].
  destruct (loop_ends pick level_read T LV _ wanted _ [c] Q ltac:(discriminate) (le_n _)) as (fuel0 & r & H); [rewrite total_candidates; auto|].
  rewrite SZ in H.
  exists fuel0. destruct r as [q|e|]; eexists; intros fuel L; rewrite (loop_more _ _ _ _ _ _ _ _ H L); reflexivity.
Qed.
End Coarse.

Theorem choose_total : forall dim, 1 <= dim <= 3 -> forall arrange, reorders arrange -> forall nearest, in_range nearest ->
  forall pick level_read drain pts grads poly wanted, tops pick -> (forall c rest, level_read c rest = c_level c) ->
  (forall q, Permutation (drain q) q) -> NoDup pts -> NoDup grads -> NoDup poly ->
  candidates pts grads poly <> [] -> wanted <= rows dim pts grads poly ->
  exists fuel0 idcs gidcs, selection dim pts grads poly wanted idcs gidcs /\ forall fuel, fuel0 <= fuel ->
    choose_coarse_points dim arrange nearest pick false level_read drain fuel pts grads poly wanted = Some (Ok (idcs, gidcs)).
Proof.
  intros dim DIM arrange ARR nearest NEAR pick level_read drain pts grads poly wanted T LV DR NP NG NO NE W.
  destruct (choose_ends dim DIM arrange ARR nearest NEAR pick level_read drain pts grads poly wanted T LV NE W) as (f0 & r & H).
  assert (forall q, q <> [] -> pick q < length q) as PK. { intros q Q. destruct (T q Q) as (c & C & _). apply nth_error_Some. congruence. }
  pose proof (choose_sound dim DIM arrange ARR nearest NEAR pick PK level_read drain DR f0 pts grads poly wanted NP NG NO NE) as S.
  rewrite (H f0 (le_n _)) in S. destruct r as [[idcs gidcs]|e|]; try contradiction. exists f0, idcs, gidcs. auto.
Qed.
Theorem choose_empty : forall dim arrange nearest pick strict level_read drain fuel pts grads poly wanted, candidates pts grads poly = [] ->
  choose_coarse_points dim arrange nearest pick strict level_read drain fuel pts grads poly wanted = Some UB.
Proof.
  intros dim arrange nearest pick strict level_read drain fuel pts grads poly wanted E. unfold choose_coarse_points. fold (candidates pts grads poly).
  rewrite E. unfold initialize. destruct (nearest []); reflexivity.
Qed.
Theorem rounding_exact : rounding_ok (fun n => half_even (n + 512)) /\ rounding_ok (fun n => (n + 513) / 2).
Proof.
  split; intros n N.
  - cbv beta. unfold half_even. cbv zeta. pose proof (Nat.div_mod (n + 512) 2 ltac:(lia)) as D. pose proof (Nat.mod_upper_bound (n + 512) 2 ltac:(lia)).
    assert (Nat.even (n + 512) = false -> (n + 512) mod 2 <> 0) as EV.
    { intros E Z. assert (Nat.even (n + 512) = true); [|congruence]. apply Nat.even_spec. exists ((n + 512) / 2). lia. }
    set (q := (n + 512) / 2) in *. repeat match goal with |- context [if ?b then _ else _] => destruct b eqn:? end; try specialize (EV eq_refl); lia.
  - cbv beta. pose proof (Nat.div_mod (n + 513) 2 ltac:(lia)). pose proof (Nat.mod_upper_bound (n + 513) 2 ltac:(lia)). lia.
Qed.
