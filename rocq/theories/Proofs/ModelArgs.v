From Coq Require Import String Ascii List Arith ZArith Bool Lia.
From Verif Require Import Proofs.RbfModel.
From Verif Require Import Model.Outcome Model.RbfModel Model.ModelArgs Spec.RbfModel Spec.ModelArgs.
Import ListNotations.

(** * The regular expressions *)
Inductive lang : regex -> token -> Prop :=
| LEmpty : lang REmpty []
| LChar : forall set c, set c = true -> lang (RChar set) [c]
| LSeq : forall a b t u, lang a t -> lang b u -> lang (RSeq a b) (t ++ u)
| LAltL : forall a b t, lang a t -> lang (RAlt a b) t
| LAltR : forall a b t, lang b t -> lang (RAlt a b) t
| LStar0 : forall a, lang (RStar a) []
| LStarS : forall a t u, lang a t -> lang (RStar a) u -> lang (RStar a) (t ++ u).

Lemma nullable_lang : forall r, nullable r = true <-> lang r [].
Proof.
  induction r as [| | |a IHa b IHb|a IHa b IHb|a IHa]; cbn; split; intros H; try discriminate; try (inversion H; fail); try reflexivity; try apply LEmpty; try apply LStar0.
  - apply andb_true_iff in H. destruct H as [A B]. apply (LSeq a b [] []); [apply IHa, A|apply IHb, B].
  - inversion H as [| |a' b' t u A B E1 E2| | | |]; subst. apply app_eq_nil in E2. destruct E2 as [-> ->].
    apply andb_true_iff. split; [apply IHa, A|apply IHb, B].
  - apply orb_true_iff in H. destruct H as [H|H]; [apply LAltL, IHa, H|apply LAltR, IHb, H].
  - inversion H; subst; apply orb_true_iff; [left; apply IHa; auto|right; apply IHb; auto].
Qed.

Lemma star_inv : forall a c t, lang (RStar a) (c :: t) -> exists u v, t = u ++ v /\ lang a (c :: u) /\ lang (RStar a) v.
Proof.
  intros a c t H. remember (RStar a) as r eqn:R. remember (c :: t) as w eqn:W. revert R W. revert a c t.
  induction H as [| | | | | |a0 t0 u0 H1 IH1 H2 IH2]; intros x y z R W; try discriminate. injection R as ->.
  destruct t0 as [|c0 t0].
  - apply (IH2 x y z eq_refl W).
  - cbn in W. injection W as -> <-. exists t0, u0. auto.
Qed.

Lemma derivative_lang : forall r c t, lang (derivative c r) t <-> lang r (c :: t).
Proof.
  induction r as [| |set|a IHa b IHb|a IHa b IHb|a IHa]; intros c t; cbn [derivative]; split; intros H; try (inversion H; fail).
  - destruct (set c) eqn:S; inversion H; subst. constructor. exact S.
  - inversion H as [|s x S E1 E2| | | | |]; subst. rewrite S. constructor.
  - assert (forall t, lang (RSeq (derivative c a) b) t -> lang (RSeq a b) (c :: t)) as Q.
    { intros w Hw. inversion Hw as [| |a' b' u v A B E1 E2| | | |]; subst. apply IHa in A. apply (LSeq a b (c :: u) v A B). }
    destruct (nullable a) eqn:N; [|apply Q, H].
    inversion H as [| | |a' b' u A E|a' b' u A E| |]; subst; [apply Q, A|].
    apply (LSeq a b [] (c :: t)); [apply nullable_lang, N|apply IHb, A].
  - inversion H as [| |a' b' u v A B E1 E2| | | |]; subst. destruct u as [|x u].
    + cbn in E2. subst v. apply nullable_lang in A. rewrite A. apply LAltR, IHb, B.
    + cbn in E2. injection E2 as -> <-. apply IHa in A.
      destruct (nullable a); [apply LAltL|]; constructor; auto.
  - inversion H; subst; [apply LAltL, IHa; auto|apply LAltR, IHb; auto].
  - inversion H; subst; [apply LAltL, IHa; auto|apply LAltR, IHb; auto].
  - inversion H as [| |a' b' u v A B E1 E2| | | |]; subst. apply IHa in A. apply (LStarS a (c :: u) v A B).
  - apply star_inv in H. destruct H as (u & v & -> & A & B). constructor; [apply IHa, A|exact B].
Qed.

Lemma match_lang : forall t r, regex_match t r = true <-> lang r t.
Proof.
  induction t as [|c t IH]; intros r; cbn [regex_match]; [apply nullable_lang|]. rewrite IH. apply derivative_lang.
Qed.

Lemma lang_char : forall set t, lang (RChar set) t <-> exists c, t = [c] /\ set c = true.
Proof. intros set t. split; [intros H; inversion H; subst; eauto|intros (c & -> & S); constructor; exact S]. Qed.
Lemma lang_seq : forall a b t, lang (RSeq a b) t <-> exists u v, t = u ++ v /\ lang a u /\ lang b v.
Proof. intros a b t. split; [intros H; inversion H; subst; eauto|intros (u & v & -> & A & B); constructor; auto]. Qed.
Lemma lang_alt : forall a b t, lang (RAlt a b) t <-> lang a t \/ lang b t.
Proof. intros a b t. split; [intros H; inversion H; subst; auto|intros [H|H]; [apply LAltL|apply LAltR]; exact H]. Qed.
Lemma lang_opt : forall a t, lang (ROpt a) t <-> t = [] \/ lang a t.
Proof.
  intros a t. unfold ROpt. rewrite lang_alt. split; (intros [H|H]; [|]); auto; [inversion H; auto|subst; right; constructor].
Qed.
Lemma lang_star_char : forall set t, lang (RStar (RChar set)) t <-> Forall (fun c => set c = true) t.
Proof.
  intros set. induction t as [|c t IH]; split; intros H; try constructor.
  - apply star_inv in H. destruct H as (u & v & -> & A & _). inversion A; subst. auto.
  - apply star_inv in H. destruct H as (u & v & -> & A & B). inversion A; subst. cbn. apply IH, B.
  - inversion H; subst. change (c :: t) with ([c] ++ t). apply LStarS; [constructor; auto|apply IH; auto].
Qed.
Lemma lang_plus_char : forall set t, lang (RPlus (RChar set)) t <-> t <> [] /\ Forall (fun c => set c = true) t.
Proof.
  intros set t. unfold RPlus. rewrite lang_seq. split.
  - intros (u & v & -> & A & B). apply lang_char in A. destruct A as (c & -> & S). apply lang_star_char in B.
    split; [discriminate|constructor; auto].
  - intros [N F]. destruct t as [|c t]; [contradiction|]. inversion F; subst. exists [c], t. split; [reflexivity|].
    split; [apply lang_char; eauto|apply lang_star_char; auto].
Qed.

(** * The characters *)
Lemma digit_char : forall c, is_digit c = true <-> In c digit_chars.
Proof.
  intros c. split; intros H.
  - destruct c as [[] [] [] [] [] [] [] []]; vm_compute in H; try discriminate; vm_compute; auto 12.
  - vm_compute in H. repeat destruct H as [<-|H]; try contradiction; reflexivity.
Qed.
Lemma letter_char : forall c, is_letter c = true <-> In c letter_chars.
Proof.
  intros c. split; intros H.
  - destruct c as [[] [] [] [] [] [] [] []]; vm_compute in H; try discriminate; vm_compute; repeat (try (left; reflexivity); right).
  - vm_compute in H. repeat destruct H as [<-|H]; try contradiction; reflexivity.
Qed.
Lemma one_eq : forall x c, one x c = true <-> c = x.
Proof. intros x c. unfold one. rewrite Ascii.eqb_eq. split; auto. Qed.

Lemma digits_forall : forall t, Forall (fun c => is_digit c = true) t <-> digits t.
Proof. intros t. unfold digits. split; apply Forall_impl; intros c; apply digit_char. Qed.
Lemma plus_digits : forall t, lang (RPlus (RChar is_digit)) t <-> t <> [] /\ digits t.
Proof. intros t. rewrite lang_plus_char, digits_forall. tauto. Qed.
Lemma star_digits : forall t, lang (RStar (RChar is_digit)) t <-> digits t.
Proof. intros t. rewrite lang_star_char, digits_forall. tauto. Qed.
Lemma lang_one : forall x t, lang (RChar (one x)) t <-> t = [x].
Proof.
  intros x t. rewrite lang_char. split.
  - intros (c & -> & H). apply one_eq in H. subst. reflexivity.
  - intros ->. exists x. split; [reflexivity|]. apply one_eq. reflexivity.
Qed.

Lemma number_spec : forall t, is_number t = true <-> number_text t.
Proof.
  intros t. unfold is_number. rewrite match_lang. unfold number_regex, number_text. rewrite lang_seq. split.
  - intros (s & w & -> & S & W). rewrite lang_opt, lang_one in S. rewrite lang_seq in W. destruct W as (m & e & -> & M & E).
    exists s, m, e. split; [exact S|]. split; [|split; [|reflexivity]].
    + rewrite lang_alt in M. unfold mantissa. destruct M as [M|M]; rewrite lang_seq in M; destruct M as (a & b & -> & A & B).
      * left. exists a. rewrite plus_digits in A. rewrite lang_opt, lang_one in B. destruct A as [A1 A2].
        split; [exact A2|]. split; [exact A1|]. destruct B as [-> | ->]; [left; apply app_nil_r|right; reflexivity].
      * right. rewrite star_digits in A. rewrite lang_seq in B. destruct B as (p & b' & -> & P & B).
        rewrite lang_one in P. subst p. rewrite plus_digits in B. exists a, b'. tauto.
    + rewrite lang_opt in E. unfold exponent. destruct E as [E|E]; [auto|]. right.
      rewrite lang_seq in E. destruct E as (x & y & -> & X & Y). rewrite lang_char in X. destruct X as (c & -> & C).
      rewrite lang_seq in Y. destruct Y as (sg & a & -> & SG & A). rewrite plus_digits in A. rewrite lang_opt, lang_char in SG.
      exists c, sg, a. apply orb_true_iff in C. rewrite !one_eq in C. split; [exact C|]. split; [|tauto].
      destruct SG as [->|(c' & -> & C')]; [auto|]. apply orb_true_iff in C'. rewrite !one_eq in C'. destruct C' as [-> | ->]; auto.
  - intros (s & m & e & S & M & E & ->). exists s, (m ++ e). split; [reflexivity|]. split; [rewrite lang_opt, lang_one; exact S|].
    rewrite lang_seq. exists m, e. split; [reflexivity|]. split.
    + rewrite lang_alt, !lang_seq. destruct M as [(a & A & N & M)|(a & b & A & B & N & ->)].
      * left. destruct M as [-> | ->].
        -- exists a, []. rewrite app_nil_r, plus_digits, lang_opt. auto.
        -- exists a, ["."%char]. rewrite plus_digits, lang_opt, lang_one. auto.
      * right. exists a, ("."%char :: b). split; [reflexivity|]. rewrite star_digits, lang_seq. split; [exact A|].
        exists ["."%char], b. rewrite lang_one, plus_digits. auto.
    + rewrite lang_opt. destruct E as [->|(c & sg & a & C & SG & A & N & ->)]; [auto|]. right. rewrite lang_seq.
      exists [c], (sg ++ a). split; [reflexivity|]. rewrite lang_char, lang_seq. split.
      * exists c. split; [reflexivity|]. apply orb_true_iff. rewrite !one_eq. exact C.
      * exists sg, a. split; [reflexivity|]. rewrite plus_digits, lang_opt, lang_char. split; [|auto].
        destruct SG as [->|[-> | ->]]; [auto| |]; right; eexists; (split; [reflexivity|reflexivity]).
Qed.

Lemma identifier_spec : forall t, is_identifier t = true <-> identifier_text t.
Proof.
  intros t. unfold is_identifier. rewrite match_lang. unfold identifier_regex, identifier_text. rewrite lang_seq.
  assert (forall c, is_digit c || is_letter c = true <-> In c (digit_chars ++ letter_chars)) as C.
  { intros c. rewrite orb_true_iff, in_app_iff, digit_char, letter_char. tauto. }
  split.
  - intros (u & v & -> & U & V). rewrite lang_char in U. destruct U as (c & -> & L). rewrite lang_star_char in V.
    exists c, v. split; [reflexivity|]. split; [apply letter_char, L|]. revert V. apply Forall_impl. intros x. apply C.
  - intros (c & t' & -> & L & F). exists [c], t'. split; [reflexivity|]. rewrite lang_char, lang_star_char. split.
    + exists c. split; [reflexivity|apply letter_char, L].
    + revert F. apply Forall_impl. intros x. apply C.
Qed.

Lemma number_head : forall c t, number_text (c :: t) -> is_letter c = false.
Proof.
  assert (forall c, In c digit_chars -> is_letter c = false) as DL.
  { intros c H. vm_compute in H. repeat destruct H as [<-|H]; try contradiction; reflexivity. }
  assert (forall a, digits a -> forall c t r, a ++ r = c :: t -> a <> [] -> is_letter c = false) as HD.
  { intros a A c t r E N. destruct a as [|x a]; [contradiction|]. cbn in E. injection E as -> _. inversion A; subst. auto. }
  intros c t (s & m & e & S & M & E & Q). destruct S as [-> | ->].
  - cbn in Q. destruct M as [(a & A & N & M)|(a & b & A & B & N & ->)].
    + destruct M as [-> | ->]; [eapply HD; [exact A|symmetry; exact Q|exact N]|].
      rewrite <- app_assoc in Q. eapply HD; [exact A|symmetry; exact Q|exact N].
    + destruct a as [|x a]; [cbn in Q; injection Q as -> _; reflexivity|].
      cbn in Q. injection Q as -> _. inversion A; subst. auto.
  - cbn in Q. injection Q as -> _. reflexivity.
Qed.
Lemma not_both : forall t, ~ (is_identifier t = true /\ is_number t = true).
Proof.
  intros t [I N]. apply identifier_spec in I. apply number_spec in N. destruct I as (c & t' & -> & L & _).
  apply number_head in N. apply letter_char in L. congruence.
Qed.
Lemma no_empty_number : ~ number_text [].
Proof. intros H. apply number_spec in H. discriminate. Qed.

(** * Names *)
Lemma token_eqb_eq : forall a b, token_eqb a b = true <-> a = b.
Proof. intros a b. unfold token_eqb. destruct (list_eq_dec ascii_dec a b); split; congruence. Qed.
Lemma kind_of_name : forall k, kind_of (short_name k) = Some k.
Proof. intros []; reflexivity. Qed.
Lemma kind_of_spec : forall name k, kind_of name = Some k <-> name = short_name k.
Proof.
  intros name k. split; [|intros ->; apply kind_of_name]. unfold kind_of.
  destruct (find _ short_names) as [[n k']|] eqn:F; [|discriminate]. cbn. intros E. injection E as ->.
  apply find_some in F. destruct F as [I E]. apply token_eqb_eq in E. cbn [fst] in E. subst n.
  unfold short_names in I. cbn [In] in I. repeat destruct I as [I|I]; try contradiction; injection I as <- <-; reflexivity.
Qed.
Lemma name_identifier : forall k, is_identifier (short_name k) = true.
Proof. intros []; reflexivity. Qed.
Lemma aniso_not_number : is_number aniso_word = false.
Proof. reflexivity. Qed.
Lemma name_not_number : forall k, is_number (short_name k) = false.
Proof. intros []; reflexivity. Qed.
Lemma name_not_aniso : forall k, token_eqb (short_name k) aniso_word = false.
Proof. intros []; reflexivity. Qed.

(** * The parser *)
Section Parser.
Context {D : Type}.
Variable nonneg : D -> bool.
Variables (dzero done : D).
Variable to_double : token -> D.
Variable dim : nat.
Variable positive : list D -> bool.

Definition stops (ts : list token) : Prop := match ts with [] => True | t :: _ => is_number t = false end.
Lemma numbers_spec : forall ts, exists ns rest, ts = ns ++ rest /\ Forall number_text ns /\ stops rest /\
  numbers to_double ts = (map to_double ns, rest).
Proof using.
  induction ts as [|t ts (ns & rest & E & F & S & N)]; [exists [], []; cbn; auto|]. cbn [numbers]. destruct (is_number t) eqn:I.
  - exists (t :: ns), rest. split; [cbn; congruence|]. split; [constructor; [apply number_spec, I|exact F]|]. split; [exact S|].
    rewrite N. reflexivity.
  - exists [], (t :: ts). cbn. auto.
Qed.
Lemma numbers_eq : forall ns rest, Forall number_text ns -> stops rest -> numbers to_double (ns ++ rest) = (map to_double ns, rest).
Proof using.
  induction ns as [|t ns IH]; intros rest F S.
  - cbn [app map]. destruct rest as [|t rest]; [reflexivity|]. cbn in S |- *. rewrite S. reflexivity.
  - inversion F as [|a b F1 F2]; subst. cbn [app numbers map]. apply number_spec in F1. rewrite F1, (IH rest F2 S). reflexivity.
Qed.
Lemma exactly_spec : forall k ts,
  (exists ns rest, ts = ns ++ rest /\ List.length ns = k /\ Forall number_text ns /\ exactly to_double k ts = Ok (map to_double ns, rest)) \/
  exactly to_double k ts = Throw ExRuntimeError.
Proof using.
  induction k as [|k IH]; intros ts; [left; exists [], ts; cbn; auto|]. cbn [exactly]. destruct ts as [|t ts]; [right; reflexivity|].
  destruct (is_number t) eqn:I; [|right; reflexivity]. destruct (IH ts) as [(ns & rest & E & L & F & X)|X]; rewrite X; cbn [bind fst snd].
  - left. exists (t :: ns), rest. split; [cbn; congruence|]. split; [cbn; congruence|].
    split; [constructor; [apply number_spec, I|exact F]|reflexivity].
  - right. reflexivity.
Qed.
Lemma exactly_eq : forall ns rest, Forall number_text ns -> exactly to_double (List.length ns) (ns ++ rest) = Ok (map to_double ns, rest).
Proof using.
  induction ns as [|t ns IH]; intros rest F; [reflexivity|]. inversion F as [|a b F1 F2]; subst. cbn [app List.length exactly map].
  apply number_spec in F1. rewrite F1, (IH rest F2). reflexivity.
Qed.

Definition blocks (l : list (list token)) : list token := concat (map (fun a => aniso_word :: a) l).
Lemma text_eq : forall n p b, text (Item n p b) = n :: p ++ blocks b.
Proof using. reflexivity. Qed.
Definition block_ok (a : list token) : Prop := List.length a = dim * dim /\ Forall number_text a.
Definition last_of (a : option (list D)) (l : list (list token)) : option (list D) :=
  match rev l with [] => a | x :: _ => Some (map to_double x) end.
Definition ends (ts : list token) : Prop := match ts with [] => True | t :: _ => token_eqb t aniso_word = false end.
Lemma last_cons : forall a x l, last_of (Some (map to_double x)) l = last_of a (x :: l).
Proof using.
  intros a x l. unfold last_of. cbn [rev]. destruct (rev l) as [|y r]; reflexivity.
Qed.
Lemma anisos_spec : forall fuel a ts, List.length ts <= fuel ->
  (exists bs rest, ts = blocks bs ++ rest /\ Forall block_ok bs /\ Forall (fun b => positive (map to_double b) = true) bs /\ ends rest /\
    anisos to_double dim positive fuel a ts = Ok (Some (last_of a bs, rest))) \/
  (exists e, anisos to_double dim positive fuel a ts = Throw e).
Proof using.
  induction fuel as [|fuel IH]; intros a ts L.
  - destruct ts; [|cbn in L; lia]. left. exists [], []. cbn. auto.
  - cbn [anisos]. destruct ts as [|t ts]; [left; exists [], []; cbn; auto|].
    destruct (token_eqb t aniso_word) eqn:T; [|left; exists [], (t :: ts); cbn; auto].
    apply token_eqb_eq in T. destruct (exactly_spec (dim * dim) ts) as [(ns & rest & E & Ln & F & X)|X]; rewrite X; cbn [bind fst snd]; [|eauto].
    destruct (positive (map to_double ns)) eqn:P; [|eauto].
    destruct (IH (Some (map to_double ns)) rest) as [(bs & rest' & E' & B & PB & N & A)|(e & A)].
    + subst ts. cbn in L. rewrite app_length in L. lia.
    + left. exists (ns :: bs), rest'. split; [|split; [|split; [|split]]].
      * subst. unfold blocks. cbn [map concat]. cbn [app]. rewrite <- app_assoc. reflexivity.
      * constructor; [split; auto|exact B].
      * constructor; auto.
      * exact N.
      * rewrite A, (last_cons a). reflexivity.
    + right. eauto.
Qed.
Lemma anisos_eq : forall bs fuel a rest, List.length (blocks bs) <= fuel -> Forall block_ok bs ->
  Forall (fun b => positive (map to_double b) = true) bs -> ends rest ->
  anisos to_double dim positive fuel a (blocks bs ++ rest) = Ok (Some (last_of a bs, rest)).
Proof using.
  induction bs as [|b bs IH]; intros fuel a rest L B P E.
  - destruct rest as [|t rest]; cbn in E |- *; destruct fuel; cbn; try rewrite E; reflexivity.
  - inversion B as [|x y [Lb Fb] B2]; subst. inversion P as [|x y P1 P2]; subst.
    unfold blocks in L |- *. cbn [map concat] in L |- *. cbn [app] in L |- *. fold (blocks bs) in L |- *.
    destruct fuel as [|fuel]; [cbn in L; lia|].
    cbn [anisos]. replace (token_eqb aniso_word aniso_word) with true by reflexivity.
    rewrite <- app_assoc, <- Lb, (exactly_eq b (blocks bs ++ rest) Fb). cbn [bind fst snd]. rewrite P1, (IH fuel), (last_cons a); auto.
    cbn in L. rewrite app_length in L. lia.
Qed.

Definition finished (ts : list token) : Prop := match ts with [] => True | t :: _ => is_identifier t = false end.
Lemma rbf_list_spec : forall fuel ts, List.length ts <= fuel ->
  (exists xs rs rest, ts = concat (map text xs) ++ rest /\ Forall (well_formed dim) xs /\ Forall2 (means dzero done to_double positive) xs rs /\
    finished rest /\ rbf_list dzero done to_double dim positive fuel ts = Ok (Some (rs, rest))) \/
  (exists e, rbf_list dzero done to_double dim positive fuel ts = Throw e).
Proof using.
  induction fuel as [|fuel IH]; intros ts L.
  - destruct ts; [|cbn in L; lia]. left. exists [], [], []. cbn. split; [reflexivity|]. auto.
  - cbn [rbf_list]. destruct ts as [|name ts]; [left; exists [], [], []; cbn; auto|].
    destruct (is_identifier name) eqn:I; [|left; exists [], [], (name :: ts); cbn; auto].
    destruct (numbers_spec ts) as (ns & rest & E & F & Sp & N). rewrite N. unfold make_rbf.
    destruct (kind_of name) as [k|] eqn:K; [|right; cbn; eauto]. rewrite make_spec.
    destruct (constructed_parameters dzero done k (map to_double ns)) as [ps|] eqn:C; cbn [bind]; [|eauto].
    assert (List.length rest <= fuel) as L1. { subst ts. cbn in L. rewrite app_length in L. lia. }
    destruct (anisos_spec (S fuel) None rest) as [(bs & rest' & E' & B & PB & N' & A)|(e & A)]; [lia| |rewrite A; cbn; eauto].
    rewrite A. cbn [bind].
    destruct (IH rest') as [(xs & rs & rest'' & E'' & W & M & Fi & R)|(e & R)].
    + subst rest. rewrite app_length in L1. lia.
    + rewrite R. cbn [bind]. left. exists (Item name ns bs :: xs), ((mk_rbf k ps, last_of None bs) :: rs), rest''.
      split; [|split; [|split; [|split; [exact Fi|reflexivity]]]].
      * subst. cbn [map concat]. rewrite text_eq. cbn [app]. rewrite <- !app_assoc. reflexivity.
      * constructor; [|exact W]. split; [exists k; apply kind_of_spec, K|]. split; [exact F|exact B].
      * constructor; [|exact M]. exists k, ps. split; [apply kind_of_spec, K|]. split; [exact C|]. split; [reflexivity|].
        split; [exact PB|reflexivity].
    + rewrite R. right. cbn. eauto.
Qed.

Lemma items_head : forall xs, Forall (well_formed dim) xs ->
  stops (concat (map text xs)) /\ ends (concat (map text xs)) /\ (xs <> [] -> concat (map text xs) <> []).
Proof using.
  intros xs W. destruct xs as [|x xs]; [cbn; split; [exact Logic.I|split; [exact Logic.I|intros H; contradiction]]|].
  inversion W as [|a b (Nk & _) _]; subst. destruct Nk as (k & Nk). cbn [map concat text app]. rewrite Nk. cbn [stops ends].
  split; [apply name_not_number|]. split; [apply name_not_aniso|discriminate].
Qed.
Lemma blocks_stop : forall bs rest, stops rest -> stops (blocks bs ++ rest).
Proof using. intros [|b bs] rest H; [exact H|]. cbn. reflexivity. Qed.

Lemma rbf_list_eq : forall xs rs fuel, List.length (concat (map text xs)) <= fuel -> Forall (well_formed dim) xs ->
  Forall2 (means dzero done to_double positive) xs rs ->
  rbf_list dzero done to_double dim positive fuel (concat (map text xs)) = Ok (Some (rs, [])).
Proof using.
  induction xs as [|x xs IH]; intros rs fuel L W M.
  - inversion M; subst. cbn. destruct fuel; reflexivity.
  - inversion M as [|a b l l' M1 M2 E1 E2]; subst. inversion W as [|a c W1 W2]; subst.
    destruct M1 as (k & ps & Nk & C & R & P & An). destruct W1 as (_ & Fp & Bk). destruct x as [name ns bs].
    cbn [i_name i_params i_anisos] in *. cbn [map concat] in L |- *. rewrite text_eq in L |- *.
    cbn [app] in L |- *. rewrite <- app_assoc in L |- *. destruct fuel as [|fuel]; [cbn in L; lia|].
    cbn [rbf_list]. rewrite Nk, name_identifier. destruct (items_head xs W2) as (Sp & E & _).
    rewrite numbers_eq; [|exact Fp|apply blocks_stop, Sp]. unfold make_rbf. rewrite kind_of_name, make_spec, C. cbn [bind].
    cbn [List.length] in L. rewrite !app_length in L.
    rewrite (anisos_eq bs (S fuel) None _); [|lia|exact Bk|exact P|exact E]. cbn [bind].
    rewrite (IH l' fuel); [|lia|exact W2|exact M2]. cbn [bind]. destruct b as [r a]. cbn [fst snd] in R, An. subst r a. reflexivity.
Qed.

Lemma construct_total : forall (rs : list (rbf D)) deg, (exists m, construct dzero rs deg = Ok m) \/ construct dzero rs deg = Throw ExInvalidArgument.
Proof using.
  intros rs deg. unfold construct. destruct rs; [auto|]. destruct (Z.eqb _ _); [eauto|]. destruct (_ && _); eauto.
Qed.

(** Accepted exactly when the arguments spell a list of functions that the constructors accept. *)
Lemma make_model_accepts : forall ts nug deg rs d n,
  make_model nonneg dzero done to_double dim positive ts nug deg = Ok (Some (rs, d, n)) <->
  exists xs, ts = concat (map text xs) /\ Forall (well_formed dim) xs /\ Forall2 (means dzero done to_double positive) xs rs /\
    construct dzero (map fst rs) deg = Ok (mk_model (map fst rs) d dzero) /\ nonneg nug = true /\ n = nug.
Proof using.
  intros ts nug deg rs d n. unfold make_model. split.
  - destruct (rbf_list_spec (List.length ts) ts (le_n _)) as [(xs & rs' & rest & E & W & M & F & R)|(e & R)]; rewrite R; cbn [bind]; [|discriminate].
    destruct rest; [|discriminate]. destruct (construct dzero (map fst rs') deg) as [m| |] eqn:C; cbn [bind]; try discriminate.
    unfold set_nugget. destruct (nonneg nug) eqn:N; cbn [negb]; [|discriminate]. cbn [poly_degree nugget]. intros H.
    injection H as -> <- <-. exists xs. rewrite app_nil_r in E. split; [exact E|]. split; [exact W|]. split; [exact M|].
    split; [|auto]. rewrite C. unfold construct in C. destruct (map fst rs) as [|r l]; [discriminate|].
    destruct (Z.eqb _ _); [|destruct (_ && _); [|discriminate]]; injection C as <-; reflexivity.
  - intros (xs & E & W & M & C & N & ->). rewrite E at 2. rewrite E at 1. rewrite (rbf_list_eq xs rs); auto. cbn [bind]. rewrite C. cbn [bind].
    unfold set_nugget. rewrite N. reflexivity.
Qed.

(** Whatever is given, a model or an exception comes out. *)
Lemma make_model_total : forall ts nug deg,
  (exists m, make_model nonneg dzero done to_double dim positive ts nug deg = Ok (Some m)) \/
  (exists e, make_model nonneg dzero done to_double dim positive ts nug deg = Throw e).
Proof using.
  intros ts nug deg. unfold make_model.
  destruct (rbf_list_spec (List.length ts) ts (le_n _)) as [(xs & rs' & rest & E & W & M & F & R)|(e & R)]; rewrite R; cbn [bind]; [|eauto].
  destruct rest; [|eauto]. destruct (construct_total (map fst rs') deg) as [[m C]|C]; rewrite C; cbn [bind]; [|eauto].
  unfold set_nugget. destruct (nonneg nug); cbn [negb]; eauto.
Qed.
End Parser.

(** * A text has one reading *)
Lemma split_unique : forall (a a' r r' : list token), Forall number_text a -> Forall number_text a' -> stops r -> stops r' ->
  a ++ r = a' ++ r' -> a = a' /\ r = r'.
Proof.
  intros a a' r r' A A' S S' E. pose proof (numbers_eq (fun t => t) a r A S) as X. pose proof (numbers_eq (fun t => t) a' r' A' S') as Y.
  rewrite E, Y in X. rewrite !map_id in X. injection X as -> ->. auto.
Qed.
Lemma app_split : forall (a a' r r' : list token), List.length a = List.length a' -> a ++ r = a' ++ r' -> a = a' /\ r = r'.
Proof.
  induction a as [|x a IH]; intros [|y a'] r r' L E; try discriminate; [auto|]. cbn in L, E. injection L as L. injection E as -> E.
  destruct (IH a' r r' L E) as [-> ->]. auto.
Qed.
Lemma blocks_unique : forall dim bs bs' r r', Forall (block_ok dim) bs -> Forall (block_ok dim) bs' -> ends r -> ends r' ->
  blocks bs ++ r = blocks bs' ++ r' -> bs = bs' /\ r = r'.
Proof.
  intros dim. induction bs as [|b bs IH]; intros bs' r r' B B' S S' E.
  - destruct bs' as [|b' bs']; [auto|]. unfold blocks in E. cbn in E. subst r. cbn in S. discriminate.
  - inversion B as [|x y [L F] B2]; subst. destruct bs' as [|b' bs'].
    + unfold blocks in E. cbn in E. subst r'. cbn in S'. discriminate.
    + inversion B' as [|x y [L' F'] B2']; subst. unfold blocks in E. cbn [map concat app] in E. fold (blocks bs) (blocks bs') in E.
      injection E as E. rewrite <- !app_assoc in E.
      assert (b = b' /\ blocks bs ++ r = blocks bs' ++ r') as [-> E2].
      { apply app_split; [congruence|exact E]. }
      destruct (IH bs' r r' B2 B2' S S' E2) as [-> ->]. auto.
Qed.
Lemma unique_reading : forall dim xs ys, Forall (well_formed dim) xs -> Forall (well_formed dim) ys ->
  concat (map text xs) = concat (map text ys) -> xs = ys.
Proof.
  intros dim. induction xs as [|x xs IH]; intros ys W W' E.
  - destruct ys as [|y ys]; [reflexivity|]. cbn in E. discriminate.
  - destruct ys as [|y ys]; [cbn in E; discriminate|]. inversion W as [|a b (_ & F & B) W2]; subst. inversion W' as [|a b (_ & F' & B') W2']; subst.
    destruct x as [n p bs], y as [n' p' bs']. cbn [i_params i_anisos] in *. cbn [map concat] in E.
    rewrite !text_eq in E. cbn [app] in E. injection E as -> E. rewrite <- !app_assoc in E.
    destruct (items_head dim xs W2) as (S & Q & _). destruct (items_head dim ys W2') as (S' & Q' & _).
    apply split_unique in E; [|exact F|exact F'|apply blocks_stop, S|apply blocks_stop, S']. destruct E as [-> E].
    apply (blocks_unique dim) in E; [|exact B|exact B'|exact Q|exact Q']. destruct E as [-> E]. f_equal. apply IH; auto.
Qed.
