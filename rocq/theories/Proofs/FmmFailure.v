From Coq Require Import List Arith NArith Reals Bool Lia Lra Permutation.
From Verif Require Import Model.Outcome Model.Solver Model.Fmm Spec.Fmm Proofs.Solver Proofs.LatticeVertices Proofs.Fmm.
Import ListNotations.

Section Failure.
Variable P : Type.
Variable E : fenv P.
Hypothesis OK : env_ok P E.

(** After a failed evaluation the configuration map has an empty entry for the tree height. *)
Lemma failure_recorded : forall s s' e, evaluate P E s = Ok (s', inr e) ->
  small P s = false /\ length (src P s') = length (src P s) /\ length (trg P s') = length (trg P s) /\ cfg P s' = cfg P s /\
  best P s' (height_of P E (Nat.max (length (src P s)) (length (trg P s)))) = Some no_config.
Proof.
  intros s s' e H. unfold evaluate, prepare in H. destruct (small P s) eqn:SM.
  { cbn [bind cfg c_height no_config Nat.ltb Nat.leb] in H. destruct (potentials _ _ _ _ _); cbn in H; discriminate. }
  set (h := height_of P E (Nat.max (length (src P s)) (length (trg P s)))) in *.
  set (s1 := if src_level P s <? h - 1 then _ else s) in *. set (s2 := if trg_level P s1 <? h - 1 then _ else s1) in *.
  assert (length (src P s2) = length (src P s) /\ length (trg P s2) = length (trg P s) /\ cfg P s2 = cfg P s) as (L1 & L2 & L3).
  { assert (length (src P s1) = length (src P s) /\ length (trg P s1) = length (trg P s) /\ cfg P s1 = cfg P s) as L.
    { unfold s1. destruct (src_level P s <? h - 1); auto. cbn. split; auto. apply Permutation_length. apply (sort_src_ok P E OK). }
    unfold s2. destruct (trg_level P s1 <? h - 1); auto. cbn. destruct L as (A & B & C). split; auto. split; auto.
    rewrite <- B. apply Permutation_length. apply (sort_trg_ok P E OK). }
  clearbody s2. unfold find_best in H.
  assert (forall s3 c, (let* r := (if negb (config_eqb c (cfg P s3)) && (c_order c =? 0) then UB else
        let s := if config_eqb c (cfg P s3) then s3
                 else State P (accuracy P s3) (src P s3) (trg P s3) (src_level P s3) (trg_level P s3) (dirty P s3) c (Some c) None None (best P s3) in
        let s := match src_tree P s with
                 | Some _ => s
                 | None => State P (accuracy P s) (src P s) (trg P s) (src_level P s) (trg_level P s) true (cfg P s) (operator P s) (Some (Stree P (src P s) None)) (trg_tree P s) (best P s)
                 end in
        let s := match trg_tree P s with
                 | Some _ => s
                 | None => State P (accuracy P s) (src P s) (trg P s) (src_level P s) (trg_level P s) (dirty P s) (cfg P s) (operator P s) (src_tree P s) (Some (trg P s)) (best P s)
                 end in
        Ok (s, @None exn)) in
     match r with
  | (s, Some e) => Ok (s, inr e)
  | (s, None) =>
      if 0 <? c_height (cfg P s) then
        match src_tree P s, trg_tree P s, operator P s with
        | Some st, Some ts, Some c =>
            let* m := if dirty P s then Ok (st_particles P st) else of_option (st_multipoles P st) in
            let* y := potentials P E (length (trg P s)) (map t_id ts) (out_at P (far P E c m (st_particles P st)) ts) in
            Ok (release P s false, inl y)
        | _, _, _ => UB
        end
      else
        let* y := potentials P E (length (trg P s)) (map t_id (trg P s)) (out_at P (direct_at P E (src P s)) (trg P s)) in
        Ok (release P s (dirty P s), inl y)
  end) <> Ok (s', inr e)) as NO.
  { intros s3 c. destruct (negb (config_eqb c (cfg P s3)) && (c_order c =? 0)); [cbn; discriminate|]. cbv zeta. cbn [bind].
    match goal with |- context [if 0 <? c_height (cfg P ?x) then _ else _] => generalize x end. intros s4.
    destruct (0 <? c_height (cfg P s4)).
    - destruct (src_tree P s4), (trg_tree P s4), (operator P s4); try discriminate.
      destruct (if dirty P s4 then _ else _); cbn [bind]; try discriminate. destruct (potentials _ _ _ _ _); cbn [bind]; discriminate.
    - destruct (potentials _ _ _ _ _); cbn [bind]; discriminate. }
  destruct (best P s2 h) as [c|] eqn:B; [exfalso; exact (NO _ _ H)|].
  destruct (search P E (accuracy P s2) (src P s2) h) as [c|e'|]; cbn [bind] in H; [exfalso; exact (NO _ _ H)| |discriminate].
  injection H as <- <-. split; auto. cbn. split; auto. split; auto. split; auto. unfold upd_nat. rewrite Nat.eqb_refl. auto.
Qed.

(** The next evaluation does not fail again: it sums directly, or is undefined if a configuration was in use. *)
Theorem retry : forall s s' e, (exists os rs, well_sized P E (new_view P) os /\ run P E (new_state P) os = Ok (s, rs)) ->
  evaluate P E s = Ok (s', inr e) ->
  match evaluate P E s' with
  | Ok (_, inl y) => exists src' trg', Permutation src' (src P s') /\ Permutation trg' (trg P s') /\
      potentials P E (length trg') (map t_id trg') (out_at P (direct_at P E src') trg') = Ok y
  | UB => cfg P s <> no_config
  | _ => False
  end.
Proof.
  intros s s' e (os & rs & Z & R) H. pose proof (failure_recorded s s' e H) as (SM & L1 & L2 & CF & B).
  assert (inv P E (seen P os) (points_in P (v_src (seen P os))) (holds (clean P true os rs)) s) as I.
  { apply (run_spec P E OK os (new_view P) true (new_state P) Z); auto. eapply inv_weaken; [|apply inv_new]. auto. }
  pose proof (evaluate_spec P E OK _ _ _ _ (src_ok_points P E _) I) as EV. rewrite H in EV. destruct EV as [_ I'].
  unfold evaluate, prepare. assert (small P s' = false) as -> by (unfold small in *; rewrite L1, L2; auto).
  rewrite L1, L2. set (h := height_of P E (Nat.max (length (src P s)) (length (trg P s)))) in *.
  set (s1 := if src_level P s' <? h - 1 then _ else s'). set (s2 := if trg_level P s1 <? h - 1 then _ else s1).
  assert (Permutation (src P s2) (src P s') /\ Permutation (trg P s2) (trg P s') /\ cfg P s2 = cfg P s' /\ best P s2 = best P s' /\
     src_tree P s2 = src_tree P s' /\ trg_tree P s2 = trg_tree P s') as (Q1 & Q2 & Q3 & Q4 & Q5 & Q6).
  { assert (Permutation (src P s1) (src P s') /\ Permutation (trg P s1) (trg P s') /\ cfg P s1 = cfg P s' /\ best P s1 = best P s' /\
     src_tree P s1 = src_tree P s' /\ trg_tree P s1 = trg_tree P s') as Q.
    { unfold s1. destruct (src_level P s' <? h - 1); cbn; [|auto 10]. split; [apply (sort_src_ok P E OK)|auto 10]. }
    unfold s2. destruct (trg_level P s1 <? h - 1); auto. cbn. destruct Q as (A1 & A2 & A3). split; auto. split; auto.
    eapply perm_trans; [apply (sort_trg_ok P E OK)|auto]. }
  clearbody s2. unfold find_best. rewrite Q4, B. cbn [bind]. rewrite Q3, CF.
  destruct (config_eqb no_config (cfg P s)) eqn:EC.
  - cbn [negb andb]. cbv zeta. rewrite Q5, (i_st _ _ _ _ _ _ I'). cbn [trg_tree]. rewrite Q6, (i_tt _ _ _ _ _ _ I'). cbn [bind cfg].
    rewrite Q3, CF. apply config_eqb_eq in EC. rewrite <- EC. cbn [c_height no_config Nat.ltb Nat.leb trg src].
    assert (Permutation (trg P s2) (numbered (fun x k => Target x k) 0 (v_trg (seen P os)))) as T by (eapply perm_trans; [apply Q2|apply I']).
    destruct (outputs P E _ (trg P s2) (direct_at P E (src P s2)) T) as (y & Y & _). rewrite Y. cbn [bind]. exists (src P s2), (trg P s2). auto.
  - cbn [negb andb c_order no_config Nat.eqb bind]. intros Q. rewrite Q in EC. discriminate.
Qed.

(** Freshly set accuracy: the configuration is found for the current weights, so the result is accurate at
    the source points. *)
Theorem fresh_accurate : (forall c ps ps' x i, Permutation ps ps' -> far P E c ps ps x i = far P E c ps' ps' x i) ->
  forall os s rs a w s' y, well_sized P E (new_view P) (os ++ [SetAccuracy (Some a)]) ->
  run P E (new_state P) (os ++ [SetAccuracy (Some a)]) = Ok (s, rs) -> (0 < a)%R ->
  let v := seen P (os ++ [SetAccuracy (Some a)]) in
  v_weights v = Some w -> (N.of_nat (length (v_src v)) <= 10000)%N -> evaluate P E s = Ok (s', inl y) ->
  forall j x i, nth_error (v_trg v) j = Some x -> In x (v_src v) -> i < kn P E ->
    exists r, nth_error y (kn P E * j + i) = Some r /\ (Rabs (r - potential P E (v_src v) w x i) <= a)%R.
Proof.
  intros FP os s rs a w s' y Z R A v W LE EV j x i J X I.
  assert (inv P E v (points_in P (v_src v)) (holds (clean P true (os ++ [SetAccuracy (Some a)]) rs)) s) as IN.
  { apply (run_spec P E OK (os ++ [SetAccuracy (Some a)]) (new_view P) true (new_state P) Z); auto. eapply inv_weaken; [|apply inv_new]. auto. }
  assert (v_accuracy v = Some a) as VA by (unfold v, seen; rewrite fold_left_app; reflexivity).
  assert (forall h, best P s h = None) as BE.
  { clear -R. revert R. generalize (new_state P). revert rs. induction os as [|o os IH]; intros rs s0 R; cbn in R.
    - injection R as <- <-. reflexivity.
    - destruct (step P E s0 o) as [[s1 r]|e|]; cbn in R; try discriminate.
      destruct (run P E s1 (os ++ [SetAccuracy (Some a)])) as [[s2 rs2]|e|] eqn:RE; cbn in R; try discriminate. injection R as <- <-.
      apply (IH rs2 s1 RE). }
  assert (inv P E v (src_ok P E v) True s) as I2.
  { destruct IN. split; auto. intros h c H. rewrite BE in H. discriminate. }
  pose proof (evaluate_spec P E OK _ _ _ _ (fun ps H => H) I2) as SP. rewrite EV in SP. destruct SP as [_ SP]. specialize (SP w W).
  destruct SP as [[L G]|(c & ps & _ & (ps0 & SO & SE) & LO & [L G])].
  - exists (potential P E (v_src v) w x i). split; [apply G; auto|]. rewrite Rminus_diag_eq by reflexivity. rewrite Rabs_R0. lra.
  - exists (far P E c ps ps x i). split; [apply G; auto|].
    rewrite VA in SE. unfold src_ok in SO. rewrite W in SO.
    (* the particles the search saw are those of the evaluation, up to order *)
    destruct (search_accurate P E OK a ps0 (height_of P E (Nat.max (length (v_src v)) (length (v_trg v)))) A) as (xs & LX & IX & CX & M).
    rewrite SE in M. destruct M as [_ M].
    assert (loaded P E (v_src v) w ps0) as SO' by exact SO.
    assert (exists q, In q ps0 /\ p_pos q = x) as (q & QI & QX).
    { apply In_nth_error in X. destruct X as [k X]. exists (Particle x (ins_of P E w k) k). split; auto.
      apply (Permutation_in _ (Permutation_sym SO')). apply (nth_error_In _ k). rewrite numbered_nth, X. reflexivity. }
    assert (length ps0 = length (v_src v)) as L0 by (rewrite (Permutation_length SO'), numbered_length; auto).
    assert (In x xs) as XX by (rewrite <- QX; apply CX; auto; rewrite L0; auto).
    specialize (M x XX i I). rewrite (direct_loaded P E _ _ _ x i SO') in M.
    rewrite (FP c ps ps0 x i); auto. eapply perm_trans; [apply LO|apply Permutation_sym; exact SO'].
Qed.
End Failure.

(** ** Witnesses *)

(** One kind of point; the kernel is constant, the far field is constant. *)
Definition wenv (k f : R) : fenv unit :=
  mk_fenv unit 1 1 (fun _ _ _ _ => k) (fun _ => 2) (fun _ ps => ps) (fun _ ts => ts) (fun _ _ _ _ _ => f) (fun _ _ _ _ => f)
    (fun n => seq 0 n) (fun _ => [0%R]) tt.
Lemma wenv_ok : forall k f, env_ok unit (wenv k f).
Proof. intros k f. split; cbn; auto. Qed.

Lemma single_err : forall k f ps c xs a, (0 <= a)%R -> (error unit (wenv k f) ps c xs <= a)%R <-> (forall x, In x xs -> (Rabs (f - direct_at unit (wenv k f) ps x 0) <= a)%R).
Proof.
  intros k f ps c xs a A. rewrite error_spec by auto. unfold within. cbn [kn wenv far]. split.
  - intros H x X. apply (H x X 0). lia.
  - intros H x X i I. assert (i = 0) as -> by lia. auto.
Qed.
Lemma direct_zero : forall f ps x i, direct_at unit (wenv 0 f) ps x i = 0%R.
Proof.
  intros f ps x i. rewrite direct_sum. induction ps as [|q ps IH]; cbn [map fold_right]; auto. rewrite IH. rewrite contribution_sum. unfold sum. cbn. ring.
Qed.
Lemma direct_no_weight : forall k f ps x i, Forall (fun q => nth 0 (p_in q) 0%R = 0%R) ps -> direct_at unit (wenv k f) ps x i = 0%R.
Proof.
  intros k f ps x i H. rewrite direct_sum. induction H as [|q ps Q H IH]; cbn [map fold_right]; auto. rewrite IH. rewrite contribution_sum. unfold sum. cbn. rewrite Q. ring.
Qed.


Definition many (pts : list unit) : Prop := (N.of_nat (length pts) * N.of_nat (length pts) <? 1048576)%N = false.
Lemma many_ex : many (repeat tt (N.to_nat 1024)).
Proof. unfold many. rewrite repeat_length, N2Nat.id. reflexivity. Qed.
Definition setup (a : R) (pts : list unit) (w : list R) : list (op unit) := [SetAccuracy (Some a); SetSource pts; SetTarget pts; SetWeights w].
Lemma setup_run : forall k f a pts w, length w = length pts -> exists ps, loaded unit (wenv k f) pts w ps /\
  run unit (wenv k f) (new_state unit) (setup a pts w) =
    Ok (State unit (Some a) ps (numbered (fun x k => Target x k) 0 pts) 0 0 false no_config None None None (fun _ => None), [None; None; None; None]).
Proof.
  intros k f a pts w L. cbn [setup run step bind fst snd set_accuracy set_source_points set_target_points set_weights src_tree new_state].
  destruct (reload unit (wenv k f) w pts (numbered (fun x k0 => Particle x (stale unit (wenv k f) k0) k0) 0 pts)) as (ps & Q & LO).
  { cbn [km wenv]. lia. }
  { eexists. apply Permutation_refl. }
  exists ps. split; auto. unfold set_weights. cbn -[map_out with_inputs numbered] in *. rewrite Q. reflexivity.
Qed.
Lemma setup_sized : forall k f a pts w, length w = length pts -> well_sized unit (wenv k f) (new_view unit) (setup a pts w).
Proof. intros k f a pts w L. cbn. rewrite L. repeat split; auto. Qed.

Lemma sampled_some : forall (ps : list (particle unit)) (xs : list unit), ps <> [] -> length xs = N.to_nat (N.min (N.of_nat (length ps)) 10000) -> exists x, In x xs.
Proof.
  intros ps xs N L. destruct xs as [|x xs]; [|exists x; left; auto]. exfalso. destruct ps as [|q ps]; [contradiction|]. cbn [length] in L. lia.
Qed.
Lemma many_nonempty : forall pts, many pts -> pts <> [].
Proof. intros pts M ->. discriminate M. Qed.

(** A far field off by one and accuracy one half: the search fails, the second evaluation succeeds. *)
Lemma failure_then_success : forall pts w, many pts -> length w = length pts ->
  exists s, run unit (wenv 0 1) (new_state unit) (setup (1 / 2) pts w) = Ok (s, [None; None; None; None]) /\
  exists s', evaluate unit (wenv 0 1) s = Ok (s', inr ExRuntimeError) /\ exists s'' y, evaluate unit (wenv 0 1) s' = Ok (s'', inl y).
Proof.
  intros pts w M L. destruct (setup_run 0 1 (1 / 2) pts w L) as (ps & LO & R). eexists. split; [apply R|].
  assert (length ps = length pts) as LP by (rewrite (Permutation_length LO), numbered_length; auto).
  match type of R with _ = Ok (?s, _) => set (s0 := s) in * end.
  assert (search unit (wenv 0 1) (Some (1 / 2)%R) ps 2 = Throw ExRuntimeError) as SE.
  { destruct (search_accurate unit (wenv 0 1) (wenv_ok 0 1) (1 / 2) ps 2) as (xs & LX & _ & _ & S); [lra|].
    destruct (search unit (wenv 0 1) (Some (1 / 2)%R) ps 2) as [c|e|]; [|destruct S as [-> _]; auto|contradiction].
    exfalso. destruct S as [_ S]. destruct (sampled_some ps xs) as (x & X); auto.
    { intros ->. cbn in LP. apply (many_nonempty pts M). destruct pts; auto. discriminate. }
    specialize (S x X 0). cbn [kn wenv far] in S. rewrite direct_zero in S. specialize (S Nat.lt_0_1).
    rewrite Rabs_right in S; lra. }
  assert (exists s', evaluate unit (wenv 0 1) s0 = Ok (s', inr ExRuntimeError)) as (s' & EV).
  { unfold evaluate, prepare, small, s0. cbn [src trg]. rewrite numbered_length, LP. unfold many in M. rewrite M.
    cbn [src_level trg_level src trg height_of wenv Nat.ltb Nat.leb Nat.sub sort_src sort_trg accuracy dirty cfg operator src_tree trg_tree best].
    unfold find_best. cbn [best accuracy src]. rewrite SE. cbn [bind]. eauto. }
  exists s'. split; auto. pose proof (retry unit (wenv 0 1) (wenv_ok 0 1) s0 s' ExRuntimeError) as RT.
  destruct (evaluate unit (wenv 0 1) s') as [[s'' [y|e]]|e|].
  - eauto.
  - exfalso. apply RT; auto. exists (setup (1 / 2) pts w), [None; None; None; None]. split; [apply setup_sized; auto|auto].
  - exfalso. apply RT; auto. exists (setup (1 / 2) pts w), [None; None; None; None]. split; [apply setup_sized; auto|auto].
  - exfalso. apply RT; auto. exists (setup (1 / 2) pts w), [None; None; None; None]. split; [apply setup_sized; auto|auto].
Qed.

(** A far field that is always zero: right for zero weights, so it is chosen; wrong for the next weights,
    for which no configuration is searched. *)
Lemma stale_configuration : forall pts w0 w, many pts -> (N.of_nat (length pts) <= 10000)%N ->
  w0 = map (fun _ => 0%R) pts -> length w = length pts ->
  exists s rs s' y, run unit (wenv 1 0) (new_state unit) (setup 1 pts w0 ++ [Evaluate; SetWeights w]) = Ok (s, rs) /\
    evaluate unit (wenv 1 0) s = Ok (s', inl y) /\ lists unit (wenv 1 0) y pts (fun _ _ => 0%R).
Proof.
  intros pts w0 w M LE W0 L. assert (length w0 = length pts) as L0 by (rewrite W0; apply map_length).
  destruct (setup_run 1 0 1 pts w0 L0) as (ps & LO & R).
  assert (length ps = length pts) as LP by (rewrite (Permutation_length LO), numbered_length; auto).
  match type of R with _ = Ok (?s, _) => set (s0 := s) in * end.
  assert (exists c, search unit (wenv 1 0) (Some 1%R) ps 2 = Ok c /\ c_height c = 2 /\ 6 <= c_order c) as (c & SE & CH & CO).
  { destruct (search_accurate unit (wenv 1 0) (wenv_ok 1 0) 1 ps 2) as (xs & LX & _ & _ & S); [lra|].
    pose proof (search_spec unit (wenv 1 0) (wenv_ok 1 0) (Some 1%R) ps 2) as SS.
    destruct (search unit (wenv 1 0) (Some 1%R) ps 2) as [c|e|]; [exists c; auto| |contradiction].
    exfalso. destruct S as [_ S]. apply (S (Config 2 8 None)); [left; reflexivity|]. intros x X i I. cbn [far wenv].
    rewrite direct_no_weight; [rewrite Rminus_0_r, Rabs_R0; lra|]. apply Forall_forall. intros q Q. apply (Permutation_in _ LO) in Q.
    apply numbered_In in Q. destruct Q as (k & z & Z & K & ->). cbn [p_in km wenv seq map nth]. rewrite W0. clear.
    generalize (1 * k + 0). intros n. revert n. induction pts as [|z pts IH]; intros [|n]; cbn; auto. }
  assert (forall ps' b, length ps' = length pts -> (b 2 = None /\ ps' = ps) \/ b 2 = Some c ->
     forall C O, C = no_config \/ (C = c /\ O = Some c) -> forall L1 L2 D, exists s' y, evaluate unit (wenv 1 0)
      (State unit (Some 1%R) ps' (numbered (fun x k => Target x k) 0 pts) L1 L2 D C O None None b) = Ok (s', inl y) /\
      lists unit (wenv 1 0) y pts (fun _ _ => 0%R) /\ (exists L1' L2' D' b', s' = State unit (Some 1%R) ps' (numbered (fun x k => Target x k) 0 pts) L1' L2' D' c (Some c) None None b' /\ b' 2 = Some c)) as EV.
  { intros ps' b LP' B C O CC L1 L2 D. unfold evaluate, prepare, small. cbn [src trg]. rewrite numbered_length, LP'. unfold many in M. rewrite M.
    cbn [height_of wenv Nat.sub src_level].
    set (s1 := if L1 <? 1 then _ else _). assert (exists z, s1 = State unit (Some 1%R) ps' (numbered (fun x k => Target x k) 0 pts) z L2 D C O None None b) as (z & ->).
    { unfold s1. destruct (L1 <? 1); [exists 1|exists L1]; reflexivity. }
    cbn [trg_level]. set (s2 := if L2 <? 1 then _ else _). assert (exists z2, s2 = State unit (Some 1%R) ps' (numbered (fun x k => Target x k) 0 pts) z z2 D C O None None b) as (z2 & ->).
    { unfold s2. destruct (L2 <? 1); [exists 1|exists L2]; reflexivity. }
    assert (exists b', find_best unit (wenv 1 0) (State unit (Some 1%R) ps' (numbered (fun x k => Target x k) 0 pts) z z2 D C O None None b) 2 =
      Ok (State unit (Some 1%R) ps' (numbered (fun x k => Target x k) 0 pts) z z2 D C O None None b', inl c) /\ b' 2 = Some c) as (b' & FB & B').
    { unfold find_best. cbn [best accuracy src]. destruct B as [[B ->]|B]; rewrite B; [rewrite SE; eexists; split; [reflexivity|]; reflexivity|exists b; auto]. }
    rewrite FB. cbn [bind cfg].
    destruct (c_order c =? 0) eqn:OZ; [apply Nat.eqb_eq in OZ; lia|]. rewrite andb_false_r. cbv zeta.
    set (s3 := if config_eqb c C then _ else _).
    assert (s3 = State unit (Some 1%R) ps' (numbered (fun x k => Target x k) 0 pts) z z2 D c (Some c) None None b') as ->.
    { unfold s3. destruct (config_eqb c C) eqn:EC; [|reflexivity]. apply config_eqb_eq in EC. destruct CC as [CC|[-> ->]]; [|reflexivity].
      exfalso. rewrite <- EC in CC. rewrite CC in CH. discriminate. }
    cbn [src_tree trg_tree bind cfg]. rewrite CH. cbn [Nat.ltb Nat.leb src_tree trg_tree operator dirty st_particles bind trg src].
    destruct (outputs unit (wenv 1 0) pts (numbered (fun x k => Target x k) 0 pts) (far unit (wenv 1 0) c ps' ps') (Permutation_refl _)) as (y & Y & G).
    rewrite Y. cbn [bind]. eexists. exists y. split; [reflexivity|]. split; [exact G|]. eexists _, _, _, _. split; [reflexivity|auto]. }
  destruct (EV ps (fun _ => None) LP (or_introl (conj eq_refl eq_refl)) no_config None (or_introl eq_refl) 0 0 false) as (s1 & y1 & E1 & _ & (a1 & a2 & a3 & b' & Q1 & B1)).
  destruct (reload unit (wenv 1 0) w pts ps) as (ps' & Q & LO'); [cbn [km wenv]; lia|exists (ins_of unit (wenv 1 0) w0); exact LO|].
  assert (length ps' = length pts) as LP' by (rewrite (Permutation_length LO'), numbered_length; auto).
  destruct (EV ps' b' LP' (or_intror B1) c (Some c) (or_intror (conj eq_refl eq_refl)) a1 a2 a3) as (s2 & y2 & E2 & G2 & _).
  eexists _, _, s2, y2. split; [|split; [exact E2|exact G2]].
  assert (forall os1 os2 s, run unit (wenv 1 0) s (os1 ++ os2) = let* r := run unit (wenv 1 0) s os1 in let* r' := run unit (wenv 1 0) (fst r) os2 in Ok (fst r', snd r ++ snd r')) as RA.
  { clear. induction os1 as [|o os1 IH]; intros os2 s; cbn [app run bind].
    - cbn. destruct (run unit (wenv 1 0) s os2) as [[? ?]|?|]; reflexivity.
    - destruct (step unit (wenv 1 0) s o) as [[s1 r]|e|]; cbn [bind fst snd]; auto. rewrite IH.
      destruct (run unit (wenv 1 0) s1 os1) as [[s2 r2]|e|]; cbn [bind fst snd]; auto.
      destruct (run unit (wenv 1 0) s2 os2) as [[s3 r3]|e|]; cbn [bind fst snd]; auto. }
  rewrite RA, R. cbn [bind fst snd run step]. unfold s0. rewrite E1. cbn [bind fst snd]. rewrite Q1. cbn [set_weights src_tree src]. unfold set_weights. cbn [src_tree src]. rewrite Q. cbn. reflexivity.
Qed.

(** ** Shares *)

Lemma total_error : forall n a f A F p q, (Rabs (total n a f p - total n A F q) <= fold_right Rplus 0 (map (fun i => Rabs (a i - A i) + Rabs (f i - F i))%R (seq 0 n)) + Rabs (p - q))%R.
Proof.
  intros n a f A F p q. unfold total.
  assert (forall (g h : nat -> R) l z, fold_left (fun y i => (y + g i + h i)%R) l z = (z + fold_right Rplus 0 (map (fun i => g i + h i) l))%R) as FO.
  { intros g h. induction l as [|i l IH]; intros z; cbn; [ring|]. rewrite IH. ring. }
  rewrite !FO. rewrite !Rplus_0_l.
  induction (seq 0 n) as [|i l IH]; cbn [map fold_right].
  - rewrite !Rplus_0_l. lra.
  - pose proof (Rabs_triang (a i - A i) (f i - F i)) as T1.
    pose proof (Rabs_triang ((a i - A i) + (f i - F i)) (fold_right Rplus 0 (map (fun i => a i + f i) l) + p - (fold_right Rplus 0 (map (fun i => A i + F i) l) + q)))%R as T2.
    match type of T2 with (Rabs ?x <= _)%R => match goal with |- (Rabs ?y <= _)%R => replace y with x by ring end end. lra.
Qed.

Lemma const_sum : forall k l, fold_right Rplus 0%R (map (fun _ : nat => k) l) = (INR (length l) * k)%R.
Proof. induction l as [|i l IH]; [cbn; ring|]. cbn [map fold_right]. rewrite IH. change (length (i :: l)) with (S (length l)). rewrite S_INR. ring. Qed.
Lemma sum_le : forall (f g : nat -> R) l, (forall i, In i l -> (f i <= g i)%R) -> (fold_right Rplus 0 (map f l) <= fold_right Rplus 0 (map g l))%R.
Proof. induction l as [|i l IH]; intros H; cbn; [lra|]. pose proof (H i (or_introl eq_refl)). assert (forall j, In j l -> (f j <= g j)%R) as H' by (intros; apply H; right; auto). specialize (IH H'). lra. Qed.

Theorem budget : forall n sigma acc a f A F p, (0 <= acc)%R ->
  (forall i, i < n -> (Rabs (a i - A i) <= share acc sigma n)%R) ->
  (forall i, i < n -> (if 0 <? sigma then Rabs (f i - F i) <= share acc sigma n else f i = F i)%R) ->
  (Rabs (total n a f p - total n A F p) <= acc)%R.
Proof.
  intros n sigma acc a f A F p P0 HA HF. eapply Rle_trans; [apply total_error|]. rewrite Rminus_diag_eq by reflexivity. rewrite Rabs_R0, Rplus_0_r.
  destruct n as [|n]; [cbn; lra|].
  assert (INR (S n) > 0)%R as N by (apply lt_0_INR; lia).
  eapply Rle_trans; [apply (sum_le _ (fun _ => (acc / INR (S n))%R))|].
  - intros i I. apply in_seq in I. specialize (HA i). specialize (HF i). unfold share in *. destruct (0 <? sigma).
    + assert (acc / 2 / INR (S n) + acc / 2 / INR (S n) = acc / INR (S n))%R as <- by (field; lra). apply Rplus_le_compat; [apply HA|apply HF]; lia.
    + rewrite (HF ltac:(lia)). rewrite (Rminus_diag_eq (F i)) by reflexivity. rewrite Rabs_R0, Rplus_0_r. apply HA. lia.
  - rewrite const_sum, seq_length. right. field. lra.
Qed.

Theorem budget_tight : forall n sigma acc, 0 < n -> 0 < sigma ->
  (total n (fun _ => share acc sigma n) (fun _ => share acc sigma n) 0 = acc)%R.
Proof.
  intros n sigma acc N Sg. unfold total, share. destruct (Nat.ltb_spec 0 sigma); [|lia].
  assert (forall k l z, fold_left (fun y (_ : nat) => (y + k + k)%R) l z = (z + INR (length l) * (k + k))%R) as FO.
  { intros k. induction l as [|i l IH]; intros z; [cbn; ring|]. cbn [fold_left]. rewrite IH. change (length (i :: l)) with (S (length l)). rewrite S_INR. ring. }
  rewrite FO, seq_length. field. apply not_0_INR. lia.
Qed.

Lemma stale_refutes : ~ forall (P : Type) (E : fenv P) os s rs a w s' y, env_ok P E -> well_sized P E (new_view P) os ->
  run P E (new_state P) os = Ok (s, rs) -> v_accuracy (seen P os) = Some a -> (0 < a)%R -> v_weights (seen P os) = Some w ->
  (N.of_nat (length (v_src (seen P os))) <= 10000)%N -> evaluate P E s = Ok (s', inl y) ->
  forall j x i, nth_error (v_trg (seen P os)) j = Some x -> In x (v_src (seen P os)) -> i < kn P E ->
    exists r, nth_error y (kn P E * j + i) = Some r /\ (Rabs (r - potential P E (v_src (seen P os)) w x i) <= a)%R.
Proof.
  intros H. remember (repeat tt (N.to_nat 1024)) as pts eqn:PT.
  assert (many pts) as M by (rewrite PT; apply many_ex).
  assert (length pts = N.to_nat 1024) as LP by (rewrite PT; apply repeat_length). clear PT.
  assert (N.of_nat (length pts) = 1024)%N as LN by (rewrite LP; apply N2Nat.id). clear LP.
  set (w := map (fun _ : unit => 1%R) pts). assert (length w = length pts) as LW by (apply map_length).
  destruct (stale_configuration pts (map (fun _ => 0%R) pts) w M) as (s & rs & s' & y & R & EV & L & G); auto; [rewrite LN; lia|].
  set (os := setup 1 pts (map (fun _ => 0%R) pts) ++ [Evaluate; SetWeights w]) in *.
  assert (v_src (seen unit os) = pts /\ v_trg (seen unit os) = pts /\ v_weights (seen unit os) = Some w /\ v_accuracy (seen unit os) = Some 1%R) as (V1 & V2 & V3 & V4) by (cbn; auto).
  destruct pts as [|[] pts']; [discriminate M|]. 
  destruct (H unit (wenv 1 0) os s rs 1%R w s' y (wenv_ok 1 0)) with (j := 0) (x := tt) (i := 0) as (r & N & B); try assumption.
  { cbn [os setup app well_sized sized see km wenv v_src new_view]. rewrite map_length. repeat split; auto; cbn [length] in *; lia. }
  { lra. }
  { rewrite V1. rewrite LN. lia. }
  { rewrite V2. reflexivity. }
  { rewrite V1. left. reflexivity. }
  { auto. }
  { rewrite (G 0 tt 0 eq_refl) in N by auto. injection N as <-. rewrite V1 in B. unfold potential in B.
    assert (sum (length (tt :: pts')) (fun k => match nth_error (tt :: pts') k with
      | Some q => sum (km unit (wenv 1 0)) (fun j => (nth (km unit (wenv 1 0) * k + j) w 0 * kernel unit (wenv 1 0) tt q 0 j)%R)
      | None => 0%R end) = INR (length (tt :: pts'))) as S.
    { unfold sum at 1. rewrite (map_ext_in _ (fun _ => 1%R)).
      - rewrite const_sum, seq_length. ring.
      - intros k K. apply in_seq in K. destruct (nth_error (tt :: pts') k) as [q|] eqn:Q; [|apply nth_error_None in Q; lia].
        cbn [km wenv kernel]. unfold sum. cbn [seq map fold_right]. replace (1 * k + 0) with k by lia.
        assert (nth k w 0%R = 1%R) as ->; [|ring]. apply nth_error_nth. unfold w. rewrite nth_error_map, Q. reflexivity. }
    rewrite S in B. rewrite Rminus_0_l, Rabs_Ropp in B. rewrite Rabs_right in B by (apply Rle_ge, pos_INR).
    assert (INR 2 <= INR (length (tt :: pts')))%R as C by (apply le_INR; lia). cbn [INR] in C. lra. }
Qed.
