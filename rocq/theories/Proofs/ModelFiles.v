From Coq Require Import String Ascii List NArith ZArith Bool Reals Lia.
From Verif Require Import Proofs.Io Proofs.IoPrefix Proofs.ModelArgs Proofs.Description.
From Verif Require Import Model.Outcome Model.RbfModel Model.ModelArgs Model.Io Model.ModelFiles Spec.RbfModel Spec.ModelArgs Spec.Io Spec.ModelFiles.
From Verif Require Model.Rbfs Model.VariogramFitting Model.Description.
Import ListNotations.
Local Open Scope N_scope.

Lemma file_name_spec : forall k, file_name k = map N_of_ascii (short_name k).
Proof. destruct k; reflexivity. Qed.
Lemma file_name_known : forall k, known (file_name k).
Proof. intros k. unfold known. destruct k; vm_compute; auto 20. Qed.
Lemma stored_kind_name : forall k, stored_kind (file_name k) = Some k.
Proof. destruct k; vm_compute; reflexivity. Qed.
Lemma known_kind : forall n, known n -> exists k, n = file_name k.
Proof.
  intros n [H|H]; cbn [cov_names poly_names map In] in H;
    repeat (destruct H as [<-|H]; [first [exists Cub; reflexivity|exists Exp; reflexivity|exists Gau; reflexivity|exists Gc3; reflexivity|exists Gc5; reflexivity|
      exists Gc7; reflexivity|exists Gc9; reflexivity|exists Sph; reflexivity|exists Sp3; reflexivity|exists Sp5; reflexivity|exists Sp7; reflexivity|
      exists Sp9; reflexivity|exists Bh2; reflexivity|exists Bh3; reflexivity|exists Th2; reflexivity|exists Th3; reflexivity]|]); contradiction.
Qed.

Section Env.
Variable d : nat.
Variable junk : nat -> N.
Variable max_elems : N.
Variable det_pos : list N -> bool.
Variable nonneg : N -> bool.
Variable to_double : token -> N.

Lemma identity_length : List.length (identity d) = (d * d)%nat.
Proof using.
  unfold identity. assert (E : forall l1, List.length (flat_map (fun i => map (fun j => if Nat.eqb i j then Io.one else zero) (seq 0 d)) l1) = (List.length l1 * d)%nat).
  { induction l1 as [|a l1 IH]; [reflexivity|]. cbn [flat_map]. rewrite app_length, map_length, seq_length, IH. cbn. lia. }
  rewrite E, seq_length. reflexivity.
Qed.
Lemma identity_fits : fits 8 (identity d).
Proof using.
  unfold fits, identity. apply Forall_forall. intros x X. apply in_flat_map in X. destruct X as (i & _ & X). apply in_map_iff in X. destruct X as (j & <- & _).
  destruct (Nat.eqb i j); vm_compute; reflexivity.
Qed.

Lemma parameters_ok : forall k ps qs, constructed_parameters zero Io.one k ps = Some qs -> fits 8 ps -> List.length qs = 2%nat /\ fits 8 qs.
Proof using.
  intros k ps qs H F. assert (Z1 : zero < 256 ^ N.of_nat 8) by (vm_compute; reflexivity). assert (O1 : Io.one < 256 ^ N.of_nat 8) by (vm_compute; reflexivity).
  destruct ps as [|a [|b [|c ps]]]; destruct k; cbn [constructed_parameters] in H; try discriminate H; injection H as <-; split; try reflexivity;
    unfold fits in *; repeat match goal with H : Forall _ (_ :: _) |- _ => inversion H; clear H; subst end; repeat constructor; assumption.
Qed.

Lemma rev_last : forall (A : Type) (l : list A) (x : A), last l x = match rev l with [] => x | a :: _ => a end.
Proof using.
  intros A l x. destruct l as [|a l] using rev_ind; [reflexivity|]. rewrite last_last, rev_app_distr. reflexivity.
Qed.

Section Created.
Variable n : nat.
Hypothesis M : machine d max_elems det_pos to_double n.

Lemma fits_doubles : forall ts, fits 8 (map to_double ts).
Proof using M. intros ts. unfold fits. apply Forall_forall. intros x X. apply in_map_iff in X. destruct X as (t & <- & _). destruct M as (H & _). exact (H t). Qed.

Lemma means_stores : forall x r, means zero Io.one to_double det_pos x r -> stores d to_double x (saved_rbf d r).
Proof using.
  intros x [r a] (k & ps & E & C & Er & F & A). cbn [fst snd] in *. subst r a. unfold stores, saved_rbf. cbn [fst snd name params aniso rkind rparams].
  split; [rewrite E; apply file_name_spec|]. split; [eauto|]. rewrite rev_last, <- map_rev. destruct (rev (i_anisos x)); reflexivity.
Qed.
Lemma means_saveable : forall x r, well_formed d x -> means zero Io.one to_double det_pos x r -> saveable_rbf d max_elems det_pos (saved_rbf d r).
Proof using M.
  intros x [r a] (_ & _ & W) (k & ps & E & C & Er & F & A). cbn [fst snd] in *. subst r a. destruct (parameters_ok _ _ _ C (fits_doubles _)) as [L P].
  unfold saveable_rbf, saved_rbf. cbn [fst snd name params aniso rkind rparams]. split; [apply file_name_known|]. split; [exact L|]. split; [exact P|].
  destruct M as (_ & I1 & _ & S3). destruct (rev (i_anisos x)) as [|a l] eqn:R.
  - split; [apply identity_length|]. split; [apply identity_fits|]. split; assumption.
  - assert (IN : In a (i_anisos x)) by (apply in_rev; rewrite R; left; reflexivity). rewrite Forall_forall in W, F. destruct (W a IN) as [L1 _].
    split; [rewrite map_length; exact L1|]. split; [apply fits_doubles|]. split; [exact (F a IN)|exact S3].
Qed.

Lemma text_count : forall xs, (List.length xs <= List.length (concat (map text xs)))%nat.
Proof using. induction xs as [|x xs IH]; [cbn; lia|]. cbn [map concat]. rewrite app_length. unfold text at 1. cbn [List.length]. lia. Qed.

Lemma degree_range : forall (rs : list (arbf (D := N))) deg dg, construct zero (map fst rs) deg = Ok (RbfModel.mk_model (map fst rs) dg zero) ->
  (-1 <= dg <= 2)%Z /\ (deg <> -2 -> dg = deg)%Z.
Proof using.
  intros rs deg dg. unfold construct. destruct (map fst rs) as [|r l] eqn:E; [discriminate|]. rewrite <- E in *. clear E.
  assert (C : forall l o, (0 <= o <= 3)%Z -> (0 <= fold_left (fun order (r : RbfModel.rbf N) => Z.max order (cpd_order1 (rkind r))) l o <= 3)%Z).
  { induction l0 as [|x l0 IH]; intros o O1; [exact O1|]. cbn [fold_left]. apply IH. destruct (rkind x); cbn; lia. }
  pose proof (C (map fst rs) 0%Z ltac:(lia)) as B. unfold cpd_order. unfold kMinRequiredPolyDegree. destruct (Z.eqb_spec deg (-2)) as [D|D].
  - intros H. injection H as <-. split; [lia|]. intros; lia.
  - destruct (_ && _) eqn:A; [|discriminate]. apply andb_prop in A. destruct A as [A1 A2]. apply Z.leb_le in A1, A2. intros H. injection H as <-. split; lia.
Qed.

(** The file of create-model holds what was spelled. *)
Lemma create_spec : forall ts nug deg file, n = List.length ts -> nug < 2 ^ 64 ->
  create_model d det_pos nonneg to_double ts nug deg = Ok file ->
  exists xs m, ts = concat (map text xs) /\ Forall (well_formed d) xs /\ Forall2 (stores d to_double) xs (rbfs m) /\ nugget m = nug /\ nonneg nug = true /\
    (-1 <= Io.poly_degree m <= 2)%Z /\ (deg <> -2 -> Io.poly_degree m = deg)%Z /\ saveable_model d max_elems det_pos m /\ file = write_model m.
Proof using M.
  intros ts nug deg file L B. unfold create_model.
  destruct (make_model nonneg zero Io.one to_double d det_pos ts nug deg) as [[[[rs dg] ng]|]| |] eqn:E; cbn [bind]; try discriminate. intros H. injection H as <-.
  apply make_model_accepts in E. destruct E as (xs & T & W & F & C & NN & ->). exists xs, (saved_model d (rs, dg, nug)).
  destruct (degree_range _ _ _ C) as [D1 D2].
  assert (LEN : List.length rs = List.length xs) by (clear - F; induction F; cbn; congruence).
  split; [exact T|]. split; [exact W|]. split.
  { unfold saved_model. cbn [rbfs]. clear - F. induction F as [|x r xs rs H F IH]; constructor; [apply means_stores; exact H|exact IH]. }
  split; [reflexivity|]. split; [exact NN|]. split; [exact D1|]. split; [exact D2|]. split; [|reflexivity].
  unfold saveable_model, saved_model. cbn [rbfs Io.poly_degree nugget]. rewrite map_length.
  split.
  { destruct M as (_ & _ & [S1 S2] & _). pose proof (text_count xs) as TC. rewrite <- T in TC. unfold size_ok. split; lia. }
  split; [|split; [cbn; lia|exact B]].
  clear - W F M. induction F as [|x r xs rs H F IH]; cbn [map]; constructor.
  - inversion W; subst. eapply means_saveable; eauto.
  - inversion W; subst. auto.
Qed.
Lemma create_defined : forall ts nug deg, (exists file, create_model d det_pos nonneg to_double ts nug deg = Ok file) \/
  exists e, create_model d det_pos nonneg to_double ts nug deg = Throw e.
Proof using.
  intros ts nug deg. unfold create_model. destruct (make_model_total (D := N) nonneg zero Io.one to_double d det_pos ts nug deg) as [[m E]|[e E]]; rewrite E; cbn [bind]; eauto.
Qed.

Lemma load_written : forall m tail, saveable_model d max_elems det_pos m -> load_model d junk max_elems det_pos (write_model m ++ tail) = Ok m.
Proof using. intros m tail H. exact (load_of_rt _ _ default_model m tail (read_model_rt d junk max_elems det_pos m default_model H)). Qed.

Lemma extract_spec : forall t tail, saveable_interpolant d max_elems det_pos t ->
  extract_model d junk max_elems det_pos (write_interpolant t ++ tail) = Ok (write_model (model_ t)).
Proof using.
  intros t tail H. unfold extract_model.
  replace (load_interpolant d junk max_elems det_pos (write_interpolant t ++ tail)) with (Ok t); [reflexivity|]. symmetry.
  exact (load_of_rt _ _ (default_interpolant d) t tail (read_interpolant_rt d junk max_elems det_pos t (default_interpolant d) H
         (proj1 (default_bbox_lengths d)) (proj2 (default_bbox_lengths d)))).
Qed.

Lemma fit_extract : forall fit ts nug deg f g, n = List.length ts -> nug < 2 ^ 64 -> (forall m r, fit m = Ok r -> saveable_result d max_elems r) ->
  create_model d det_pos nonneg to_double ts nug deg = Ok f -> fit_model d junk max_elems det_pos fit f = Ok g ->
  extract_model d junk max_elems det_pos g = Ok f.
Proof using M.
  intros fit ts nug deg f g L B S1 C F. destruct (create_spec ts nug deg f L B C) as (xs & m & _ & _ & _ & _ & _ & _ & _ & SM & ->).
  unfold fit_model in F. pose proof (load_written m [] SM) as LW. rewrite app_nil_r in LW. rewrite LW in F. cbn [bind] in F.
  destruct (fit m) as [[[[c gc] b] w]| |] eqn:FM; cbn [bind] in F; try discriminate F. injection F as <-.
  pose proof (S1 m _ FM) as (A1 & A2 & A3 & A4). rewrite <- (app_nil_r (write_interpolant _)). apply extract_spec. repeat split; try assumption; try apply A1; try apply A2; try apply A3; try apply A4; apply SM.
Qed.

(** What show-model prints. *)
Lemma show_spec : forall real eigen ts nug deg f, n = List.length ts -> nug < 2 ^ 64 -> create_model d det_pos nonneg to_double ts nug deg = Ok f ->
  exists xs, ts = concat (map text xs) /\ Forall (well_formed d) xs /\
    (Exists polyharmonic xs -> show_model d junk max_elems det_pos real eigen f = Throw ExRuntimeError) /\
    (~ Exists polyharmonic xs -> exists out, show_model d junk max_elems det_pos real eigen f = Ok out /\ fst out = real nug /\
       Forall2 (fun x l => exists a b, map to_double (i_params x) = [a; b] /\ fst l = real a) xs (snd out)).
Proof using M.
  intros real eigen ts nug deg f L B C. destruct (create_spec ts nug deg f L B C) as (xs & m & T & W & ST & NG & _ & _ & _ & SM & ->).
  exists xs. split; [exact T|]. split; [exact W|]. unfold show_model. pose proof (load_written m [] SM) as LW. rewrite app_nil_r in LW. rewrite LW. cbn [bind].
  assert (FS : exists fs, stored_functions d real (rbfs m) = Some fs /\
    Forall2 (fun x g => exists k ps, i_name x = short_name k /\ constructed_parameters zero Io.one k (map to_double (i_params x)) = Some ps /\
       VariogramFitting.f_kind g = formula k /\ VariogramFitting.f_p0 g = real (nth 0 ps 0)) xs fs).
  { clear - ST. induction ST as [|x r xs rs H F IH]; [exists []; split; [reflexivity|constructor]|]. destruct IH as (fs & E & G).
    destruct H as (N1 & (k & K & P) & _). cbn [stored_functions]. unfold stored_function at 1. rewrite N1, K, <- file_name_spec, stored_kind_name. cbn [option_map].
    rewrite E. eexists. split; [reflexivity|]. constructor; [|exact G]. exists k, (params r). auto. }
  destruct FS as (fs & -> & G). destruct (description_spec d (VariogramFitting.RbfModel (real (nugget m)) fs) eigen) as [D1 D2].
  assert (EX : Exists polyharmonic xs <-> Exists (fun f => In (VariogramFitting.f_kind f) [Rbfs.Bh2; Rbfs.Th2; Rbfs.Bh3; Rbfs.Th3]) fs).
  { clear - G. induction G as [|x g xs fs H F IH]; [split; intros Q; inversion Q|]. destruct H as (k & ps & K & _ & FK & _). rewrite !Exists_cons, IH.
    assert (P : polyharmonic x <-> In (VariogramFitting.f_kind g) [Rbfs.Bh2; Rbfs.Th2; Rbfs.Bh3; Rbfs.Th3]).
    { rewrite FK. split.
      - intros (k' & I1 & K'). rewrite K in K'. assert (k = k') as -> by (pose proof (kind_of_name k) as A1; rewrite K', kind_of_name in A1; congruence).
        destruct I1 as [<-|[<-|[<-|[<-|[]]]]]; cbn; auto 6.
      - intros I1. exists k. split; [|exact K]. destruct k; cbn in I1 |- *; repeat (destruct I1 as [I1|I1]; try discriminate I1); try contradiction; auto 6. }
    tauto. }
  split.
  - intros X. apply D1. apply EX. exact X.
  - intros X. assert (NX : forallb (fun f => Description.is_covariance_function (VariogramFitting.f_kind f)) fs = true).
    { apply forallb_forall. intros g I1. destruct (Description.is_covariance_function (VariogramFitting.f_kind g)) eqn:E; [reflexivity|]. exfalso. apply X, EX. apply Exists_exists.
      exists g. split; [exact I1|]. destruct (VariogramFitting.f_kind g); cbn in E |- *; try discriminate; auto. }
    unfold Description.description. cbn [VariogramFitting.m_rbfs VariogramFitting.m_nugget]. rewrite NX. cbn [negb]. eexists. split; [reflexivity|]. cbn [fst snd].
    split; [rewrite NG; reflexivity|]. clear - G X. induction G as [|x g xs fs H F IH]; cbn [map]; constructor.
    + destruct H as (k & ps & K & CP & FK & P0). assert (NP : ~ In k [Bh2; Bh3; Th2; Th3]) by (intros I1; apply X; constructor; exists k; auto).
      unfold Description.line. cbn [fst]. destruct (map to_double (i_params x)) as [|a [|b [|c l]]]; destruct k; cbn [constructed_parameters] in CP; try discriminate CP;
        try (exfalso; apply NP; cbn; tauto); injection CP as <-; exists a, b; split; try reflexivity; exact P0.
    + apply IH. intros E. apply X. constructor 2. exact E.
Qed.
End Created.

Lemma extract_prefix : forall t k out, saveable_interpolant d max_elems det_pos t -> (k < List.length (write_interpolant t))%nat ->
  extract_model d junk max_elems det_pos (firstn k (write_interpolant t)) = Ok out -> out = write_model (model_ t).
Proof using.
  intros t k out SV K. unfold extract_model. pose proof (interpolant_prefixes d junk max_elems det_pos t k SV K) as P. cbv zeta in P. destruct (Nat.ltb _ _).
  - destruct P as [E|[e E]]; rewrite E; discriminate.
  - destruct P as (cs & E & _). rewrite E. cbn [bind model_]. intros H. injection H as <-. reflexivity.
Qed.

(** * Whatever is loaded can be evaluated *)
Lemma make_rbf_known : forall nm ps r, Io.make_rbf d nm ps = Ok r -> known (name r).
Proof using.
  intros nm ps r. unfold Io.make_rbf. destruct (is_in nm cov_names) eqn:C.
  - destruct ps as [|a [|b [|c ps]]]; try discriminate. intros H. injection H as <-. left. apply is_in_spec. exact C.
  - destruct (is_in nm poly_names) eqn:P; [|discriminate]. destruct ps as [|a [|b [|c ps]]]; try discriminate; intros H; injection H as <-; right; apply is_in_spec; exact P.
Qed.
Lemma read_rbf_known : forall old s r s', read_rbf d junk max_elems det_pos old s = Ok (r, s') -> known (name r).
Proof using.
  intros old s r s'. unfold read_rbf.
  destruct (read_vec max_elems 1 [] s) as [r1| |]; cbn [bind]; try discriminate.
  destruct (read_vec max_elems 8 [] (snd r1)) as [r2| |]; cbn [bind]; try discriminate.
  destruct (read_fixed (uninit junk (d * d)) (snd r2)) as [r3| |]; cbn [bind]; try discriminate.
  destruct (Io.make_rbf d (fst r1) (fst r2)) as [q| |] eqn:Q; cbn [bind]; try discriminate.
  unfold set_anisotropy. destruct (det_pos (fst r3)); cbn [bind]; [|discriminate]. intros H. injection H as <- <-. cbn [name]. exact (make_rbf_known _ _ _ Q).
Qed.
Lemma read_each_known : forall olds s rs s', read_each (read_rbf d junk max_elems det_pos) olds s = Ok (rs, s') -> Forall (fun r => known (name r)) rs.
Proof using.
  induction olds as [|o olds IH]; intros s rs s' H; cbn [read_each] in H; [injection H as <- <-; constructor|].
  destruct (read_rbf d junk max_elems det_pos o s) as [[r s1]| |] eqn:R; cbn [bind snd fst] in H; try discriminate H.
  destruct (read_each (read_rbf d junk max_elems det_pos) olds s1) as [[rs1 s2]| |] eqn:E; cbn [bind snd fst] in H; try discriminate H. injection H as <- <-.
  constructor; [exact (read_rbf_known _ _ _ _ R)|exact (IH _ _ _ E)].
Qed.
Lemma load_known : forall file m, load_model d junk max_elems det_pos file = Ok m -> Forall (fun r => known (name r)) (rbfs m).
Proof using.
  intros file m. unfold load_model, load, read_model, read_objs.
  destruct (read_scalar 8 0 (mk_stream file false)) as [r0| |]; cbn [bind]; try discriminate. destruct (max_elems <? fst r0); [discriminate|].
  destruct (read_each _ _ _) as [[rs s1]| |] eqn:E; cbn [bind fst snd]; try discriminate.
  destruct (read_int 4 (Io.poly_degree default_model) s1) as [r2| |]; cbn [bind]; try discriminate.
  destruct (read_scalar 8 (nugget default_model) (snd r2)) as [r3| |]; cbn [bind]; try discriminate. cbn [fst snd]. intros H. injection H as <-. cbn [rbfs].
  exact (read_each_known _ _ _ _ E).
Qed.
End Env.

Lemma kind_eqb_spec : forall a b, kind_eqb a b = true <-> a = b.
Proof.
  intros a b. unfold kind_eqb. destruct (list_eq_dec N.eq_dec (file_name a) (file_name b)) as [E|E]; split; intros H; try congruence.
  pose proof (stored_kind_name a) as A. rewrite E, stored_kind_name in A. congruence.
Qed.
Lemma make_fmm_spec : forall f k, make_fmm f k = Ok (f, k).
Proof. intros f k. destruct f, k; vm_compute; reflexivity. Qed.
Lemma make_all_spec : forall fs ks, make_all fs ks = Ok (map (fun k => map (fun f => (f, k)) fs) ks).
Proof.
  intros fs. induction ks as [|k ks IH]; [reflexivity|]. cbn [make_all]. rewrite IH. 
  assert (E : forall gs, (fix each fs := match fs with [] => Ok [] | f :: fs' => let* e := make_fmm f k in let* es := each fs' in Ok (e :: es) end) gs =
    Ok (map (fun f => (f, k)) gs)).
  { induction gs as [|g gs IHg]; [reflexivity|]. rewrite IHg, make_fmm_spec. reflexivity. }
  rewrite E. reflexivity.
Qed.
Lemma loaded_evaluators : forall d junk max_elems det_pos file m fs, load_model d junk max_elems det_pos file = Ok m ->
  exists ks, map (fun r => stored_kind (name r)) (rbfs m) = map Some ks /\ make_all fs ks = Ok (map (fun k => map (fun f => (f, k)) fs) ks).
Proof.
  intros d junk me dp file m fs H. pose proof (load_known _ _ _ _ _ _ H) as K. clear H. induction K as [|r rs H K IH].
  - exists []. split; reflexivity.
  - destruct (known_kind _ H) as [k E]. destruct IH as (ks & IK & _). exists (k :: ks). split; [|apply make_all_spec]. cbn [map]. rewrite E, stored_kind_name. congruence.
Qed.

(** * The dimension is not in the file *)
Lemma fixed_one : forall junk bs tail, fits 8 bs -> List.length bs = 1%nat -> read_fixed (uninit junk 1) (mk_stream (write_fixed bs ++ tail) false) = Ok (bs, mk_stream tail false).
Proof. intros junk bs tail F L. apply read_block_rt; [exact F|]. rewrite uninit_length, L. reflexivity. Qed.
Lemma wrong_dimension : forall junk max_elems det_pos d k a b deg nug, (d = 2 \/ d = 3)%nat -> 1 <= max_elems -> size_ok max_elems 3 ->
  a < 2 ^ 64 -> b < 2 ^ 64 -> det_pos [Io.one] = true ->
  load_model 1 junk max_elems det_pos (write_model (mk_model [mk_rbf (file_name k) [a; b] (identity d)] deg nug))
  = Ok (mk_model [mk_rbf (file_name k) [a; b] (identity 1)] 0 0).
Proof.
  intros junk me dp d k a b deg nug D ME S3 A B DP.
  set (r1 := mk_rbf (file_name k) [a; b] (identity 1)).
  assert (SR : saveable_rbf 1 me dp r1).
  { unfold saveable_rbf, r1. cbn [name params aniso]. split; [apply file_name_known|]. split; [reflexivity|]. split; [repeat constructor; assumption|].
    split; [reflexivity|]. split; [apply identity_fits|]. split; [exact DP|exact S3]. }
  set (rest := write_fixed (tl (identity d)) ++ write_int 4 deg ++ write_scalar 8 nug).
  assert (W : write_model (mk_model [mk_rbf (file_name k) [a; b] (identity d)] deg nug) = write_scalar 8 1 ++ write_rbf r1 ++ rest).
  { unfold write_model, write_objs, rest, r1. cbn [rbfs Io.poly_degree nugget List.length flat_map]. rewrite app_nil_r. unfold write_rbf. cbn [name params aniso].
    rewrite <- !app_assoc. f_equal. f_equal. f_equal. rewrite !app_assoc. f_equal. f_equal. destruct D as [-> | ->]; reflexivity. }
  rewrite W. clear W. unfold load_model, load, read_model, read_objs.
  rewrite (read_scalar_rt 8 1 0 ltac:(vm_compute; reflexivity)). cbn [bind fst snd]. replace (me <? 1) with false by (symmetry; apply N.ltb_ge; exact ME).
  change (N.to_nat 1) with 1%nat. cbn [rbfs default_model firstn List.length Nat.sub repeat app read_each].
  rewrite (read_rbf_rt 1 junk me dp r1 null_rbf SR). cbn [bind fst snd].
  assert (R : exists t, rest = repeat 0 16 ++ t) by (unfold rest; destruct D as [-> | ->]; eexists; reflexivity).
  destruct R as [t ->]. reflexivity.
Qed.

(** * What fit writes, and what the functions in a file mean *)
Lemma fit_written : forall d junk max_elems det_pos fit f g tail, (forall m r, fit m = Ok r -> saveable_result d max_elems r) ->
  (forall m, load_model d junk max_elems det_pos f = Ok m -> saveable_model d max_elems det_pos m) -> fit_model d junk max_elems det_pos fit f = Ok g ->
  exists m c gc b w, load_model d junk max_elems det_pos f = Ok m /\ fit m = Ok (c, gc, b, w) /\
    load_interpolant d junk max_elems det_pos (g ++ tail) = Ok (mk_interpolant m true c gc b w).
Proof.
  intros d junk me dp fit f g tail S1 SM F. unfold fit_model in F. destruct (load_model d junk me dp f) as [m| |] eqn:L; cbn [bind] in F; try discriminate F.
  destruct (fit m) as [[[[c gc] b] w]| |] eqn:FM; cbn [bind] in F; try discriminate F. injection F as <-. exists m, c, gc, b, w. split; auto. split; auto.
  specialize (SM m eq_refl). pose proof (S1 m _ FM) as (A1 & A2 & A3 & A4).
  refine (load_of_rt _ _ (default_interpolant d) _ tail (read_interpolant_rt d junk me dp _ (default_interpolant d) _ (proj1 (default_bbox_lengths d)) (proj2 (default_bbox_lengths d)))).
  repeat split; try assumption; try apply A1; try apply A2; try apply A3; try apply A4; apply SM.
Qed.
Lemma nth_concat : forall (d : nat) (rows : list (list N)) i j, Forall (fun r => List.length r = d) rows -> (i < List.length rows)%nat -> (j < d)%nat ->
  nth (i * d + j) (concat rows) 0 = nth j (nth i rows []) 0.
Proof.
  intros d. induction rows as [|r rows IH]; intros i j H I0 J; [cbn in I0; lia|]. inversion H; subst. cbn [concat]. destruct i as [|i]; cbn [nth].
  - apply app_nth1. lia.
  - rewrite app_nth2 by lia. cbn in I0. rewrite <- IH by (auto; lia). f_equal. lia.
Qed.
Lemma stored_meaning : forall d real nm q a b rows, In (nm, q) meaning -> List.length rows = d -> Forall (fun r => List.length r = d) rows ->
  exists an, stored_function d real (mk_rbf (bytes_of_string nm) [a; b] (concat rows)) = Some (VariogramFitting.Function q (real a) (real b) an) /\
  forall i j, (i < d)%nat -> (j < d)%nat -> an i j = real (nth j (nth i rows []) 0).
Proof.
  intros d real nm q a b rows H L F. exists (fun i j => real (nth (i * d + j) (concat rows) 0)). split.
  - unfold meaning in H. cbn [In] in H. unfold stored_function. cbn [name params aniso nth].
    repeat (destruct H as [H|H]; [injection H as <- <-; reflexivity|]). destruct H.
  - intros i j I0 J. rewrite (nth_concat d rows i j F) by lia. reflexivity.
Qed.
