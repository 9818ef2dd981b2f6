From Coq Require Import Reals List Arith Bool Lia Lra Psatz.
From Verif Require Import Model.Clip Spec.Clip.
Import ListNotations.
Local Open Scope R_scope.

Lemma pt_ext : forall p q : pt, px p = px q -> py p = py q -> pz p = pz q -> p = q.
Proof. intros [[a b] c] [[d e] f]. cbn. intros. subst. auto. Qed.
Ltac pt_eq := apply pt_ext; cbn [px py pz fst snd]; try ring; try lra.
Lemma pt_eqb_true : forall p q, pt_eqb p q = true <-> p = q.
Proof.
  intros p q. unfold pt_eqb, eqb. split.
  - intros H. destruct (Req_EM_T (px p) (px q)); [|discriminate]. destruct (Req_EM_T (py p) (py q)); [|discriminate]. destruct (Req_EM_T (pz p) (pz q)); [|discriminate]. apply pt_ext; auto.
  - intros ->. destruct (Req_EM_T (px q) (px q)), (Req_EM_T (py q) (py q)), (Req_EM_T (pz q) (pz q)); auto; exfalso; auto.
Qed.
Lemma ltb_true : forall a b, a < b -> ltb a b = true.
Proof. intros. unfold ltb. destruct (Rlt_dec a b); try lra; auto. Qed.
Lemma ltb_false : forall a b, b <= a -> ltb a b = false.
Proof. intros. unfold ltb. destruct (Rlt_dec a b); try lra; auto. Qed.
Lemma eqb_true : forall a, eqb a a = true.
Proof. intros. unfold eqb. destruct (Req_EM_T a a); [auto|exfalso; auto]. Qed.
Lemma eqb_false : forall a b, a <> b -> eqb a b = false.
Proof. intros. unfold eqb. destruct (Req_EM_T a b); [exfalso; auto|auto]. Qed.

(** ** The point where an edge crosses a plane *)
Theorem intersect_symmetric : forall F lt add sub mul div (a b : F * F * F) th, lt (fst (fst a)) (fst (fst b)) = negb (lt (fst (fst b)) (fst (fst a))) ->
  intersect_with F lt add sub mul div a b th = intersect_with F lt add sub mul div b a th.
Proof.
  intros F lt add sub mul div [[a0 a1] a2] [[b0 b1] b2] th. cbn [fst]. intros H. unfold intersect_with, lex_less. destruct (lt b0 a0); cbn [negb] in H; rewrite H; auto.
Qed.
Definition lerp (a b : pt) (t : R) : pt := ((1 - t) * px a + t * px b, (1 - t) * py a + t * py b, (1 - t) * pz a + t * pz b).
Lemma intersect_lerp : forall a b th, px a <> px b -> intersect a b th = lerp a b ((th - px a) / (px b - px a)).
Proof.
  intros [[a0 a1] a2] [[b0 b1] b2] th. cbn [px fst]. intros N. unfold intersect, intersect_with. destruct (lex_less _ _ _ _); unfold lerp; apply pt_ext; cbn [px py pz fst snd]; field; lra.
Qed.
Lemma intersect_between : forall a b th, (px a < th < px b) \/ (px b < th < px a) -> exists t, 0 < t < 1 /\ intersect a b th = lerp a b t /\ px (lerp a b t) = th.
Proof.
  intros a b th H. exists ((th - px a) / (px b - px a)). assert (N : px a <> px b) by lra. split; [|split; [apply intersect_lerp; auto|]].
  - destruct H as [[A B]|[A B]].
    + split; [apply Rdiv_lt_0_compat; lra|]. apply (Rmult_lt_reg_r (px b - px a)); [lra|]. unfold Rdiv. rewrite Rmult_assoc, Rinv_l by lra. lra.
    + replace ((th - px a) / (px b - px a)) with ((px a - th) / (px a - px b)) by (field; lra). split; [apply Rdiv_lt_0_compat; lra|]. apply (Rmult_lt_reg_r (px a - px b)); [lra|]. unfold Rdiv. rewrite Rmult_assoc, Rinv_l by lra. lra.
  - unfold lerp. cbn [px fst]. field. lra.
Qed.
Lemma intersect_comm : forall a b th, px a <> px b -> intersect a b th = intersect b a th.
Proof.
  intros a b th N. apply intersect_symmetric. fold (px a) (px b). destruct (Rtotal_order (px a) (px b)) as [L|[L|L]]; [|lra|]; [rewrite (ltb_true (px a)), (ltb_false (px b)) by lra|rewrite (ltb_false (px a)), (ltb_true (px b)) by lra]; auto.
Qed.

(** ** The cases *)
Definition rotation (t t' : triangle) : Prop := let '(a, b, c) := t in t' = (a, b, c) \/ t' = (b, c, a) \/ t' = (c, a, b).
Inductive shape (th : R) (tri : triangle) : list triangle -> Prop :=
| Keep : forall a b c, tri = (a, b, c) -> px a <= th -> px b <= th -> px c <= th -> shape th tri [tri]
| Nothing : forall a b c, tri = (a, b, c) -> th <= px a -> th <= px b -> th <= px c -> shape th tri []
| OneIn : forall v0 v1 v2, rotation tri (v0, v1, v2) -> px v0 < th -> th < px v1 -> th < px v2 -> shape th tri [(v0, intersect v0 v1 th, intersect v0 v2 th)]
| EachA : forall v0 v1 v2, rotation tri (v0, v1, v2) -> px v0 = th -> px v1 < th -> th < px v2 -> shape th tri [(v0, v1, intersect v1 v2 th)]
| EachB : forall v0 v1 v2, rotation tri (v0, v1, v2) -> px v0 = th -> th < px v1 -> px v2 < th -> shape th tri [(v0, intersect v1 v2 th, v2)]
| TwoInA : forall v0 v1 v2, rotation tri (v0, v1, v2) -> th < px v0 -> px v1 < th -> px v2 < th ->
    shape th tri [(v1, v2, intersect v2 v0 th); (v1, intersect v2 v0 th, intersect v1 v0 th)]
| TwoInB : forall v0 v1 v2, rotation tri (v0, v1, v2) -> th < px v0 -> px v1 < th -> px v2 < th ->
    shape th tri [(v1, v2, intersect v1 v0 th); (v2, intersect v2 v0 th, intersect v1 v0 th)].
Lemma side : forall th p, (px p < th /\ interior th p = true /\ boundary th p = false /\ exterior th p = false) \/
  (px p = th /\ interior th p = false /\ boundary th p = true /\ exterior th p = false) \/
  (th < px p /\ interior th p = false /\ boundary th p = false /\ exterior th p = true).
Proof.
  intros th p. unfold exterior, interior, boundary. destruct (Rtotal_order (px p) th) as [L|[L|L]].
  - left. rewrite ltb_true, eqb_false by lra. auto.
  - right. left. rewrite ltb_false by lra. rewrite L, eqb_true. auto.
  - right. right. rewrite ltb_false, eqb_false by lra. auto.
Qed.
Theorem pieces_shape : forall flip tri th, shape th tri (pieces flip tri th).
Proof.
  intros flip [[a b] c] th. unfold pieces, count, rotate_to.
  destruct (side th a) as [(A & A1 & A2 & A3)|[(A & A1 & A2 & A3)|(A & A1 & A2 & A3)]]; rewrite ?A1, ?A2, ?A3;
  destruct (side th b) as [(B & B1 & B2 & B3)|[(B & B1 & B2 & B3)|(B & B1 & B2 & B3)]]; rewrite ?B1, ?B2, ?B3;
  destruct (side th c) as [(C & C1 & C2 & C3)|[(C & C1 & C2 & C3)|(C & C1 & C2 & C3)]]; rewrite ?C1, ?C2, ?C3; cbn [Nat.add].
  all: try (eapply Keep; [reflexivity|lra|lra|lra]); try (eapply Nothing; [reflexivity|lra|lra|lra]).
  all: try (eapply OneIn; [cbn; auto|lra|lra|lra]).
  all: try (rewrite ltb_true by lra; eapply EachA; [cbn; auto|lra|lra|lra]); try (rewrite ltb_false by lra; eapply EachB; [cbn; auto|lra|lra|lra]).
  all: match goal with |- context [if ?f then _ else _] => destruct f end; [eapply TwoInA|eapply TwoInB]; cbn; auto.
Qed.

(** ** Parts of a triangle *)
Definition mix (w0 w1 w2 : R * R * R) (tri : triangle) : triangle := (weighted w0 tri, weighted w1 tri, weighted w2 tri).
Definition det (w0 w1 w2 : R * R * R) : R :=
  let '(a, b, c) := w0 in let '(d, e, f) := w1 in let '(g, h, i) := w2 in a * (e * i - f * h) - b * (d * i - f * g) + c * (d * h - e * g).
Lemma normal_mix : forall w0 w1 w2 tri, weights w0 -> weights w1 -> weights w2 -> normal (mix w0 w1 w2 tri) = scale (det w0 w1 w2) (normal tri).
Proof.
  intros [[a b] c] [[d e] f] [[g h] i] [[p q] r] (_ & _ & _ & A) (_ & _ & _ & D) (_ & _ & _ & G).
  assert (a = 1 - b - c) by lra. assert (d = 1 - e - f) by lra. assert (g = 1 - h - i) by lra. subst a d g. clear.
  unfold mix, weighted, normal, scale, cross, minus, det. apply pt_ext; cbn [px py pz fst snd]; ring.
Qed.
Lemma part_mix : forall w0 w1 w2 tri out, weights w0 -> weights w1 -> weights w2 -> out = mix w0 w1 w2 tri -> part_of tri (det w0 w1 w2) out.
Proof.
  intros w0 w1 w2 tri out A B C ->. split; [|apply normal_mix; auto]. intros p [<-|[<-|[<-|[]]]]; [exists w0|exists w1|exists w2]; auto.
Qed.
Lemma weighted_trans : forall w tri w0 w1 w2, weights w -> weights w0 -> weights w1 -> weights w2 -> exists w', weights w' /\ weighted w (mix w0 w1 w2 tri) = weighted w' tri.
Proof.
  intros [[u v] s] [[p q] r] [[a b] c] [[d e] f] [[g h] i] W A D G. cbn [weights] in *.
  exists (u * a + v * d + s * g, u * b + v * e + s * h, u * c + v * f + s * i). split.
  - cbn [weights]. destruct W as (U0 & V0 & S0 & W), A as (? & ? & ? & A), D as (? & ? & ? & D), G as (? & ? & ? & G). repeat split; try (repeat apply Rplus_le_le_0_compat; apply Rmult_le_pos; auto).
    replace (u * a + v * d + s * g + (u * b + v * e + s * h) + (u * c + v * f + s * i)) with (u * (a + b + c) + v * (d + e + f) + s * (g + h + i)) by ring. rewrite A, D, G. lra.
  - unfold mix, weighted. pt_eq.
Qed.
Lemma in_triangle_trans : forall tri t p, (forall q, In q (corners t) -> in_triangle tri q) -> in_triangle t p -> in_triangle tri p.
Proof.
  intros tri [[a b] c] p H (w & W & ->). destruct (H a) as (w0 & W0 & ->); [cbn; auto|]. destruct (H b) as (w1 & W1 & ->); [cbn; auto|]. destruct (H c) as (w2 & W2 & ->); [cbn; auto|].
  destruct (weighted_trans w tri w0 w1 w2 W W0 W1 W2) as (w' & W' & E). exists w'. split; auto.
Qed.
Lemma part_trans : forall tri c t c' t', part_of tri c t -> part_of t c' t' -> part_of tri (c * c') t'.
Proof.
  intros tri c t c' t' [A B] [A' B']. split; [intros p P; apply (in_triangle_trans tri t p A); auto|]. rewrite B', B. unfold scale. pt_eq.
Qed.
Lemma part_refl : forall tri, part_of tri 1 tri.
Proof.
  intros [[a b] c]. split.
  - intros p [<-|[<-|[<-|[]]]]; [exists (1, 0, 0)|exists (0, 1, 0)|exists (0, 0, 1)]; (split; [cbn [weights]; lra|unfold weighted; pt_eq]).
  - unfold scale. pt_eq.
Qed.
Lemma rotation_part : forall t t' c out, rotation t t' -> part_of t' c out -> part_of t c out.
Proof.
  intros [[a b] c0] t' c out R P. assert (Q : part_of (a, b, c0) 1 t').
  { destruct (part_refl (a, b, c0)) as [S _]. split.
    - intros p I. apply S. destruct R as [-> |[-> | ->]]; cbn [corners In] in *; tauto.
    - destruct R as [-> |[-> | ->]]; unfold normal, scale, cross, minus; pt_eq. }
  replace c with (1 * c) by ring. eapply part_trans; eauto.
Qed.
Definition parts (tri : triangle) (l : list triangle) : Prop := exists cs, Forall2 (part_of tri) cs l /\ Forall (fun c => 0 < c) cs /\ total cs <= 1.
Lemma parts_1 : forall tri t w0 w1 w2 out, rotation tri t -> weights w0 -> weights w1 -> weights w2 -> out = mix w0 w1 w2 t -> 0 < det w0 w1 w2 <= 1 -> parts tri [out].
Proof.
  intros tri t w0 w1 w2 out R A B C E D. exists [det w0 w1 w2]. split; [|split; [repeat constructor; lra|cbn; lra]]. constructor; auto. eapply rotation_part; eauto. apply part_mix; auto.
Qed.
Lemma parts_2 : forall tri t w0 w1 w2 out u0 u1 u2 out', rotation tri t -> weights w0 -> weights w1 -> weights w2 -> out = mix w0 w1 w2 t -> 0 < det w0 w1 w2 ->
  weights u0 -> weights u1 -> weights u2 -> out' = mix u0 u1 u2 t -> 0 < det u0 u1 u2 -> det w0 w1 w2 + det u0 u1 u2 <= 1 -> parts tri [out; out'].
Proof.
  intros tri t w0 w1 w2 out u0 u1 u2 out' R A B C E D A' B' C' E' D' S. exists [det w0 w1 w2; det u0 u1 u2]. split; [|split; [repeat constructor; lra|cbn; lra]].
  constructor; [eapply rotation_part; eauto; apply part_mix; auto|]. constructor; auto. eapply rotation_part; eauto. apply part_mix; auto.
Qed.
Ltac mixeq := unfold mix, weighted, lerp; repeat match goal with |- (_, _) = (_, _) => f_equal end; try (pt_eq); try ring.
Theorem pieces_parts : forall flip tri th, parts tri (pieces flip tri th).
Proof.
  intros flip tri th. destruct (pieces_shape flip tri th) as [a b c -> A B C|a b c -> A B C|v0 v1 v2 R A B C|v0 v1 v2 R A B C|v0 v1 v2 R A B C|v0 v1 v2 R A B C|v0 v1 v2 R A B C].
  - exists [1]. split; [constructor; [apply part_refl|auto]|]. split; [repeat constructor; lra|cbn; lra].
  - exists []. split; [constructor|]. split; [constructor|cbn; lra].
  - destruct (intersect_between v0 v1 th) as (s & S & -> & _); [lra|]. destruct (intersect_between v0 v2 th) as (t & T & -> & _); [lra|].
    apply (parts_1 tri (v0, v1, v2) (1, 0, 0) (1 - s, s, 0) (1 - t, 0, t)); auto; try (cbn [weights]; lra); [mixeq|cbn [det]; split; nra].
  - destruct (intersect_between v1 v2 th) as (t & T & -> & _); [lra|].
    apply (parts_1 tri (v0, v1, v2) (1, 0, 0) (0, 1, 0) (0, 1 - t, t)); auto; try (cbn [weights]; lra); [mixeq|cbn [det]; split; nra].
  - destruct (intersect_between v1 v2 th) as (t & T & -> & _); [lra|].
    apply (parts_1 tri (v0, v1, v2) (1, 0, 0) (0, 1 - t, t) (0, 0, 1)); auto; try (cbn [weights]; lra); [mixeq|cbn [det]; split; nra].
  - destruct (intersect_between v2 v0 th) as (t & T & -> & _); [lra|]. destruct (intersect_between v1 v0 th) as (s & S & -> & _); [lra|].
    apply (parts_2 tri (v0, v1, v2) (0, 1, 0) (0, 0, 1) (t, 0, 1 - t) _ (0, 1, 0) (t, 0, 1 - t) (s, 1 - s, 0)); auto; try (cbn [weights]; lra); try mixeq; cbn [det]; nra.
  - destruct (intersect_between v2 v0 th) as (t & T & -> & _); [lra|]. destruct (intersect_between v1 v0 th) as (s & S & -> & _); [lra|].
    apply (parts_2 tri (v0, v1, v2) (0, 1, 0) (0, 0, 1) (s, 1 - s, 0) _ (0, 0, 1) (t, 0, 1 - t) (s, 1 - s, 0)); auto; try (cbn [weights]; lra); try mixeq; cbn [det]; nra.
Qed.
Theorem pieces_below : forall flip tri th out p, In out (pieces flip tri th) -> In p (corners out) -> px p <= th.
Proof.
  intros flip tri th out p O P. assert (X : forall a b, px (intersect a b th) = th) by (intros a b; unfold intersect, intersect_with; destruct (lex_less _ _ _ _); destruct a as [[? ?] ?], b as [[? ?] ?]; auto).
  destruct (pieces_shape flip tri th) as [a b c -> A B C|a b c -> A B C|v0 v1 v2 R A B C|v0 v1 v2 R A B C|v0 v1 v2 R A B C|v0 v1 v2 R A B C|v0 v1 v2 R A B C]; cbn [In] in O;
    repeat (destruct O as [O|O]; [subst out; cbn [corners In] in P; destruct P as [<-|[<-|[<-|[]]]]; rewrite ?X; lra|]); destruct O.
Qed.

(** ** Nothing below the plane is lost *)
Lemma rotation_in : forall t t' p, rotation t t' -> in_triangle t p -> in_triangle t' p.
Proof.
  intros [[a b] c] t' p R ([[u v] s] & W & ->). cbn [weights] in W. destruct R as [-> |[-> | ->]]; [exists (u, v, s)|exists (v, s, u)|exists (s, u, v)]; (split; [cbn [weights]; lra|unfold weighted; pt_eq]).
Qed.
Lemma div_pos : forall a b, 0 <= a -> 0 < b -> 0 <= a / b.
Proof. intros. apply Rmult_le_pos; auto. left. apply Rinv_0_lt_compat. auto. Qed.
Lemma neg_factor : forall m x, m * x <= 0 -> 0 < x -> m <= 0.
Proof. intros. apply Rnot_lt_le. intros L. assert (0 < m * x) by (apply Rmult_lt_0_compat; auto). lra. Qed.
Lemma pos_factor : forall m x, m * x <= 0 -> x < 0 -> 0 <= m.
Proof. intros. apply Rnot_lt_le. intros L. assert (0 < (- m) * (- x)) by (apply Rmult_lt_0_compat; lra). lra. Qed.
Theorem pieces_cover : forall flip tri th p, in_triangle tri p -> px p < th -> exists out, In out (pieces flip tri th) /\ in_triangle out p.
Proof.
  intros flip tri th p I L. destruct (pieces_shape flip tri th) as [a b c -> A B C|a b c -> A B C|v0 v1 v2 R A B C|v0 v1 v2 R A B C|v0 v1 v2 R A B C|v0 v1 v2 R A B C|v0 v1 v2 R A B C].
  - exists (a, b, c). split; [left|]; auto.
  - exfalso. destruct I as ([[u v] s] & W & ->). cbn [weights] in W. unfold weighted in L. cbn [px fst] in L. fold (px a) (px b) (px c) in L. nra.
  - apply (rotation_in _ _ _ R) in I. destruct I as ([[u v] w] & (U & V & W & ONE) & E). assert (FP : u * px v0 + v * px v1 + w * px v2 < th) by (rewrite E in L; exact L).
    destruct (intersect_between v0 v1 th) as (s & S & -> & P1); [lra|]. destruct (intersect_between v0 v2 th) as (t & T & -> & P2); [lra|]. eexists. split; [left; reflexivity|].
    unfold lerp in P1, P2. cbn [px fst] in P1, P2. fold (px v0) (px v1) (px v2) in P1, P2.
    exists (1 - v / s - w / t, v / s, w / t). assert (V' : 0 <= v / s) by (apply div_pos; lra). assert (W' : 0 <= w / t) by (apply div_pos; lra). split.
    + cbn [weights]. repeat split; auto; [|lra]. set (x := v / s) in *. set (y := w / t) in *. assert (v = x * s) by (unfold x; field; lra). assert (w = y * t) by (unfold y; field; lra).
      apply (pos_factor _ (px v0 - th)); [|lra]. clear E. clearbody x y. subst v w. assert (u = 1 - x * s - y * t) by lra. subst u. nra.
    + rewrite E. unfold weighted, lerp. assert (u = 1 - v - w) by lra. subst u. apply pt_ext; cbn [px py pz fst snd]; field; lra.
  - apply (rotation_in _ _ _ R) in I. destruct I as ([[u v] w] & (U & V & W & ONE) & E). assert (FP : u * px v0 + v * px v1 + w * px v2 < th) by (rewrite E in L; exact L).
    destruct (intersect_between v1 v2 th) as (t & T & -> & P2); [lra|]. eexists. split; [left; reflexivity|].
    unfold lerp in P2. cbn [px fst] in P2. fold (px v1) (px v2) in P2.
    exists (u, v - (1 - t) * (w / t), w / t). assert (W' : 0 <= w / t) by (apply div_pos; lra). split.
    + cbn [weights]. set (y := w / t) in *. assert (w = y * t) by (unfold y; field; lra). repeat split; auto; [|nra]. apply (pos_factor _ (px v1 - th)); [|lra]. clear E. clearbody y. subst w. assert (u = 1 - v - y * t) by lra. subst u. nra.
    + rewrite E. unfold weighted, lerp. apply pt_ext; cbn [px py pz fst snd]; field; lra.
  - apply (rotation_in _ _ _ R) in I. destruct I as ([[u v] w] & (U & V & W & ONE) & E). assert (FP : u * px v0 + v * px v1 + w * px v2 < th) by (rewrite E in L; exact L).
    destruct (intersect_between v1 v2 th) as (t & T & -> & P2); [lra|]. eexists. split; [left; reflexivity|].
    unfold lerp in P2. cbn [px fst] in P2. fold (px v1) (px v2) in P2.
    exists (u, v / (1 - t), w - t * (v / (1 - t))). assert (V' : 0 <= v / (1 - t)) by (apply div_pos; lra). split.
    + cbn [weights]. set (y := v / (1 - t)) in *. assert (v = y * (1 - t)) by (unfold y; field; lra). repeat split; auto; [|nra]. apply (pos_factor _ (px v2 - th)); [|lra]. clear E. clearbody y. subst v. assert (u = 1 - w - y * (1 - t)) by lra. subst u. nra.
    + rewrite E. unfold weighted, lerp. apply pt_ext; cbn [px py pz fst snd]; field; lra.
  - apply (rotation_in _ _ _ R) in I. destruct I as ([[u v] w] & (U & V & W & ONE) & E). assert (FP : u * px v0 + v * px v1 + w * px v2 < th) by (rewrite E in L; exact L).
    destruct (intersect_between v2 v0 th) as (t & T & -> & P2); [lra|]. destruct (intersect_between v1 v0 th) as (s & S & -> & P1); [lra|].
    unfold lerp in P1, P2. cbn [px fst] in P1, P2. fold (px v0) (px v1) (px v2) in P1, P2.
    destruct (Rle_dec 0 (w - (1 - t) * (u / t))) as [M|M].
    + eexists. split; [left; reflexivity|]. exists (v, w - (1 - t) * (u / t), u / t). split.
      * cbn [weights]. repeat split; auto; [apply div_pos; lra|]. assert (u / t - t * (u / t) = u / t - u) by (field; lra). lra.
      * rewrite E. unfold weighted, lerp. apply pt_ext; cbn [px py pz fst snd]; field; lra.
    + eexists. split; [right; left; reflexivity|]. set (y := w / (1 - t)). set (k := u - t * y). set (z := k / s).
      assert (WY : w = y * (1 - t)) by (unfold y; field; lra). assert (UK : u = k + t * y) by (unfold k; ring). assert (KZ : k = z * s) by (unfold z; field; lra).
      assert (Y0 : 0 <= y) by (apply div_pos; lra). assert (K0 : 0 <= k).
      { assert (UT : u = u / t * t) by (field; lra). set (q := u / t) in *. assert (y <= q) by (apply (Rmult_le_reg_r (1 - t)); lra). unfold k. nra. }
      assert (Z0 : 0 <= z) by (apply div_pos; lra). exists (v - (1 - s) * z, y, z). split.
      * cbn [weights]. repeat split; auto; [|nra]. apply (pos_factor _ (px v1 - th)); [|lra]. assert (ID : (v - (1 - s) * z) * (px v1 - th) = (u * px v0 + v * px v1 + w * px v2 - th) - y * ((1 - t) * px v2 + t * px v0 - th) - z * ((1 - s) * px v1 + s * px v0 - th)).
        { assert (VV : v = 1 - u - w) by lra. clear - WY UK KZ VV. clearbody y k z. subst. ring. }
        rewrite P1, P2 in ID. lra.
      * rewrite E. unfold weighted, lerp. clearbody y k z. subst. apply pt_ext; cbn [px py pz fst snd]; ring.
  - apply (rotation_in _ _ _ R) in I. destruct I as ([[u v] w] & (U & V & W & ONE) & E). assert (FP : u * px v0 + v * px v1 + w * px v2 < th) by (rewrite E in L; exact L).
    destruct (intersect_between v2 v0 th) as (t & T & -> & P2); [lra|]. destruct (intersect_between v1 v0 th) as (s & S & -> & P1); [lra|].
    unfold lerp in P1, P2. cbn [px fst] in P1, P2. fold (px v0) (px v1) (px v2) in P1, P2.
    destruct (Rle_dec 0 (v - (1 - s) * (u / s))) as [M|M].
    + eexists. split; [left; reflexivity|]. exists (v - (1 - s) * (u / s), w, u / s). split.
      * cbn [weights]. repeat split; auto; [apply div_pos; lra|]. assert (u / s - s * (u / s) = u / s - u) by (field; lra). lra.
      * rewrite E. unfold weighted, lerp. apply pt_ext; cbn [px py pz fst snd]; field; lra.
    + eexists. split; [right; left; reflexivity|]. set (y := v / (1 - s)). set (k := u - s * y). set (z := k / t).
      assert (VY : v = y * (1 - s)) by (unfold y; field; lra). assert (UK : u = k + s * y) by (unfold k; ring). assert (KZ : k = z * t) by (unfold z; field; lra).
      assert (Y0 : 0 <= y) by (apply div_pos; lra). assert (K0 : 0 <= k).
      { assert (UT : u = u / s * s) by (field; lra). set (q := u / s) in *. assert (y <= q) by (apply (Rmult_le_reg_r (1 - s)); lra). unfold k. nra. }
      assert (Z0 : 0 <= z) by (apply div_pos; lra). exists (w - (1 - t) * z, z, y). split.
      * cbn [weights]. repeat split; auto; [|nra]. apply (pos_factor _ (px v2 - th)); [|lra]. assert (ID : (w - (1 - t) * z) * (px v2 - th) = (u * px v0 + v * px v1 + w * px v2 - th) - z * ((1 - t) * px v2 + t * px v0 - th) - y * ((1 - s) * px v1 + s * px v0 - th)).
        { assert (WW : w = 1 - u - v) by lra. clear - VY UK KZ WW. clearbody y k z. subst. ring. }
        rewrite P1, P2 in ID. lra.
      * rewrite E. unfold weighted, lerp. clearbody y k z. subst. apply pt_ext; cbn [px py pz fst snd]; ring.
Qed.
