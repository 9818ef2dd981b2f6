From Coq Require Import Reals List Arith ZArith Bool Lia Lra Permutation.
From Verif Require Import Proofs.DirectionsCheck Proofs.LinAlg Proofs.Variogram Model.Outcome Model.LinAlg Model.Variogram Model.Directions Spec.Variogram Spec.Directions.
Import ListNotations.
Local Open Scope R_scope.

Definition apart_ok (num den : Z) (table : list v3) : bool :=
  forallb (fun a => forallb (fun b => (Nat.eqb a b) ||
    (let u := nth a table (0, 0, 0)%Z in let v := nth b table (0, 0, 0)%Z in
     (den * den * (zdot u v * zdot u v) <=? num * num * zdot u u * zdot v v)%Z)) (seq 0 (length table))) (seq 0 (length table)).
Lemma apart_3 : apart_ok 94 100 (triples anisotropic_3) = true.
Proof. vm_compute. reflexivity. Qed.
Lemma apart_2 : apart_ok 924 1000 (triples anisotropic_2) = true.
Proof. vm_compute. reflexivity. Qed.
Definition unit_ok (table : list v3) : bool :=
  forallb (fun d => (Z.abs (zdot d d - 1000000000000000000) <=? 100000000000)%Z) table.
Lemma unit_3 : unit_ok (triples anisotropic_3) = true.
Proof. vm_compute. reflexivity. Qed.
Lemma unit_2 : unit_ok (triples anisotropic_2) = true.
Proof. vm_compute. reflexivity. Qed.
Lemma unit_1 : unit_ok (triples (isotropic 1)) = true.
Proof. vm_compute. reflexivity. Qed.

(** Vectors of up to three coordinates. *)
Definition flat (dim : nat) (table : list (list Z)) : Prop := (dim <= 3)%nat /\ forall r, In r table -> length r = dim.
Lemma nth_beyond : forall (r : list Z) e, (length r <= e)%nat -> nth e r 0%Z = 0%Z.
Proof. intros r e H. apply nth_overflow. exact H. Qed.
Definition third (dim : nat) (u : nat -> R) (e : nat) : R := if Nat.ltb e dim then u e else 0.
Lemma dot_rows : forall dim table k u, flat dim table -> (k < length table)%nat ->
  dot dim u (rows table k) = nano * rdot (third dim u 0) (third dim u 1) (third dim u 2) (triple (nth k table [])).
Proof.
  intros dim table k u [D F] K. pose proof (F _ (nth_In table [] K)) as L. unfold dot, rows, third, rdot, triple.
  destruct dim as [|[|[|[|dim]]]]; [| | | |lia]; cbn [rsum Nat.ltb Nat.leb]; rewrite ?(nth_beyond _ 0), ?(nth_beyond _ 1), ?(nth_beyond _ 2) by lia; ring.
Qed.
Lemma dot_rows2 : forall dim table k l, flat dim table -> (k < length table)%nat -> (l < length table)%nat ->
  dot dim (rows table k) (rows table l) = nano * nano * IZR (zdot (triple (nth k table [])) (triple (nth l table []))).
Proof.
  intros dim table k l [D F] K M. pose proof (F _ (nth_In table [] K)) as L. pose proof (F _ (nth_In table [] M)) as L'.
  unfold dot, rows, triple, zdot. rewrite !plus_IZR, !mult_IZR.
  destruct dim as [|[|[|[|dim]]]]; [| | | |lia]; cbn [rsum]; rewrite ?(nth_beyond _ 0), ?(nth_beyond _ 1), ?(nth_beyond _ 2) by lia; ring.
Qed.
Lemma dot_third : forall dim u, (dim <= 3)%nat -> dot dim u u = third dim u 0 * third dim u 0 + third dim u 1 * third dim u 1 + third dim u 2 * third dim u 2.
Proof. intros dim u D. unfold dot, third. destruct dim as [|[|[|[|dim]]]]; [| | | |lia]; cbn [rsum Nat.ltb Nat.leb]; ring. Qed.

Lemma dot_self : forall n u, 0 <= dot n u u.
Proof. intros n u. unfold dot. induction n as [|n IH]; cbn [rsum]; [lra|]. pose proof (Rle_0_sqr (u n)). unfold Rsqr in *. lra. Qed.
Lemma near_squares : forall dim c u d, 0 <= c -> c * c * dot dim u u * dot dim d d <= dot dim u d * dot dim u d <-> near dim c u d.
Proof.
  intros dim c u d C. unfold near, len. pose proof (dot_self dim u) as U. pose proof (dot_self dim d) as D.
  pose proof (sqrt_sqrt _ U) as SU. pose proof (sqrt_sqrt _ D) as SD. pose proof (sqrt_pos (dot dim u u)) as PU. pose proof (sqrt_pos (dot dim d d)) as PD.
  assert (0 <= c * sqrt (dot dim u u) * sqrt (dot dim d d)) as P by (apply Rmult_le_pos; [apply Rmult_le_pos|]; assumption).
  assert (c * c * dot dim u u * dot dim d d = Rsqr (c * sqrt (dot dim u u) * sqrt (dot dim d d))) as E.
  { unfold Rsqr. rewrite <- SU at 1. rewrite <- SD at 1. ring. }
  rewrite E. change (dot dim u d * dot dim u d) with (Rsqr (dot dim u d)). split; intros H.
  - apply Rsqr_le_abs_0 in H. rewrite (Rabs_pos_eq _ P) in H. exact H.
  - rewrite (Rsqr_abs (dot dim u d)). apply Rsqr_incr_1; [exact H|exact P|apply Rabs_pos].
Qed.
Lemma far_squares : forall dim c u d, 0 <= c -> dot dim u d * dot dim u d <= c * c * dot dim u u * dot dim d d <-> far dim c u d.
Proof.
  intros dim c u d C. unfold far, len. pose proof (dot_self dim u) as U. pose proof (dot_self dim d) as D.
  pose proof (sqrt_sqrt _ U) as SU. pose proof (sqrt_sqrt _ D) as SD. pose proof (sqrt_pos (dot dim u u)) as PU. pose proof (sqrt_pos (dot dim d d)) as PD.
  assert (0 <= c * sqrt (dot dim u u) * sqrt (dot dim d d)) as P by (apply Rmult_le_pos; [apply Rmult_le_pos|]; assumption).
  assert (c * c * dot dim u u * dot dim d d = Rsqr (c * sqrt (dot dim u u) * sqrt (dot dim d d))) as E.
  { unfold Rsqr. rewrite <- SU at 1. rewrite <- SD at 1. ring. }
  rewrite E. change (dot dim u d * dot dim u d) with (Rsqr (dot dim u d)). split; intros H.
  - apply Rsqr_le_abs_0 in H. rewrite (Rabs_pos_eq _ P) in H. exact H.
  - rewrite (Rsqr_abs (dot dim u d)). apply Rsqr_incr_1; [exact H|apply Rabs_pos|exact P].
Qed.

Definition dims : list nat := [1%nat; 2%nat; 3%nat].
Lemma flat_aniso : forall dim, (1 <= dim <= 3)%nat -> flat dim (anisotropic dim).
Proof.
  intros dim D. split; [lia|]. destruct dim as [|[|[|[|dim]]]]; [lia| | | |lia].
  - cbn. intros r [<-|[]]. reflexivity.
  - change (forall r, In r anisotropic_2 -> length r = 2%nat). assert (forallb (fun r => Nat.eqb (length r) 2) anisotropic_2 = true) as H by reflexivity.
    rewrite forallb_forall in H. intros r R. apply Nat.eqb_eq. apply H. exact R.
  - change (forall r, In r anisotropic_3 -> length r = 3%nat). assert (forallb (fun r => Nat.eqb (length r) 3) anisotropic_3 = true) as H by reflexivity.
    rewrite forallb_forall in H. intros r R. apply Nat.eqb_eq. apply H. exact R.
Qed.
Lemma table_size : length (anisotropic 1) = 1%nat /\ length (anisotropic 2) = 8%nat /\ length (anisotropic 3) = 46%nat.
Proof. repeat split. Qed.
Lemma nano_pos : 0 < nano.
Proof. unfold nano. lra. Qed.
Lemma nth_triples : forall table k, (k < length table)%nat -> nth k (triples table) (0, 0, 0)%Z = triple (nth k table []).
Proof. intros table k H. unfold triples. change (0, 0, 0)%Z with (triple []). apply map_nth. Qed.

Lemma unit_sound : forall dim table, flat dim table -> unit_ok (triples table) = true -> forall k, (k < length table)%nat ->
  Rabs (dot dim (rows table k) (rows table k) - 1) <= / 10000000.
Proof.
  intros dim table F H k K. unfold unit_ok in H. rewrite forallb_forall in H. specialize (H (triple (nth k table []))).
  assert (In (triple (nth k table [])) (triples table)) as I1 by (unfold triples; apply in_map; apply nth_In; exact K).
  specialize (H I1). apply Z.leb_le in H. rewrite dot_rows2 with (1 := F) by assumption. set (z := zdot _ _) in *.
  assert (-100000000000 <= z - 1000000000000000000 <= 100000000000)%Z as B by lia. destruct B as [B1 B2].
  apply IZR_le in B1. apply IZR_le in B2. rewrite minus_IZR in B1, B2. unfold nano. apply Rabs_le. lra.
Qed.
Theorem units : forall dim k, (1 <= dim <= 3)%nat -> (k < length (anisotropic dim))%nat ->
  Rabs (dot dim (rows (anisotropic dim) k) (rows (anisotropic dim) k) - 1) <= / 10000000.
Proof.
  intros dim k D K. apply unit_sound; [apply flat_aniso; exact D| |exact K]. destruct dim as [|[|[|[|dim]]]]; [lia| | | |lia].
  - exact unit_1.
  - exact unit_2.
  - exact unit_3.
Qed.
Lemma apart_sound : forall dim table num den, flat dim table -> (0 <= num)%Z -> (0 < den)%Z -> apart_ok num den (triples table) = true -> forall k l,
  (k < length table)%nat -> (l < length table)%nat -> k <> l -> far dim (IZR num / IZR den) (rows table k) (rows table l).
Proof.
  intros dim table num den F N D H k l K M E. unfold apart_ok in H. rewrite forallb_forall in H.
  assert (length (triples table) = length table) as LT by apply map_length. rewrite LT in H.
  specialize (H k ltac:(apply in_seq; lia)). rewrite forallb_forall in H. specialize (H l ltac:(apply in_seq; lia)).
  apply orb_true_iff in H. destruct H as [H|H]; [apply Nat.eqb_eq in H; contradiction|]. cbv zeta in H.
  rewrite !nth_triples in H by assumption. apply Z.leb_le in H. apply IZR_le in H. rewrite !mult_IZR in H.
  apply IZR_lt in D. apply IZR_le in N. apply far_squares.
  { apply Rmult_le_pos; [exact N|]. left. apply Rinv_0_lt_compat. exact D. }
  rewrite !dot_rows2 with (1 := F) by assumption. set (z := IZR (zdot (triple (nth k table [])) (triple (nth l table [])))) in *.
  set (a := IZR (zdot (triple (nth k table [])) (triple (nth k table [])))) in *. set (b := IZR (zdot (triple (nth l table [])) (triple (nth l table [])))) in *.
  apply Rmult_le_reg_l with (IZR den * IZR den); [apply Rmult_lt_0_compat; exact D|].
  replace (IZR den * IZR den * (IZR num / IZR den * (IZR num / IZR den) * (nano * nano * a) * (nano * nano * b)))
    with (nano * nano * nano * nano * (IZR num * IZR num * a * b)) by (field; lra).
  replace (IZR den * IZR den * (nano * nano * z * (nano * nano * z))) with (nano * nano * nano * nano * (IZR den * IZR den * (z * z))) by ring.
  apply Rmult_le_compat_l; [|exact H]. pose proof nano_pos. repeat apply Rmult_le_pos; lra.
Qed.
Theorem separated : forall dim k l, (1 <= dim <= 3)%nat -> (k < length (anisotropic dim))%nat -> (l < length (anisotropic dim))%nat -> k <> l ->
  far dim (separation dim) (rows (anisotropic dim) k) (rows (anisotropic dim) l).
Proof.
  intros dim k l D K M E. pose proof (flat_aniso dim D) as F. destruct dim as [|[|[|[|dim]]]]; [lia| | | |lia].
  - cbn in K, M. lia.
  - exact (apart_sound 2 anisotropic_2 924 1000 F ltac:(lia) ltac:(lia) apart_2 k l K M E).
  - exact (apart_sound 3 anisotropic_3 94 100 F ltac:(lia) ltac:(lia) apart_3 k l K M E).
Qed.
Lemma close_near : forall dim table num den, flat dim table -> (0 <= num)%Z -> (0 < den)%Z -> forall u k, (k < length table)%nat ->
  close num den (triple (nth k table [])) (third dim u 0) (third dim u 1) (third dim u 2) -> near dim (IZR num / IZR den) u (rows table k).
Proof.
  intros dim table num den F N D u k K H. apply IZR_lt in D. apply IZR_le in N. apply near_squares.
  { apply Rmult_le_pos; [exact N|]. left. apply Rinv_0_lt_compat. exact D. }
  rewrite dot_rows2 with (1 := F) by assumption. rewrite dot_rows with (1 := F) by assumption. rewrite dot_third by (destruct F; assumption).
  unfold close in H. rewrite !mult_IZR in H. set (r := rdot _ _ _ _) in *. set (z := IZR (zdot _ _)) in *. set (q := third dim u 0 * _ + _ + _) in *.
  apply Rmult_le_reg_l with (IZR den * IZR den); [apply Rmult_lt_0_compat; exact D|].
  replace (IZR den * IZR den * (IZR num / IZR den * (IZR num / IZR den) * q * (nano * nano * z))) with (nano * nano * (IZR num * IZR num * q * z)) by (field; lra).
  replace (IZR den * IZR den * (nano * r * (nano * r))) with (nano * nano * (IZR den * IZR den * (r * r))) by ring.
  apply Rmult_le_compat_l; [|exact H]. pose proof nano_pos. apply Rmult_le_pos; lra.
Qed.
Lemma some_near : forall dim table num den, flat dim table -> (0 <= num)%Z -> (0 < den)%Z -> forall u,
  some_close num den (triples table) (third dim u 0) (third dim u 1) (third dim u 2) -> exists k, (k < length table)%nat /\ near dim (IZR num / IZR den) u (rows table k).
Proof.
  intros dim table num den F N D u [d [Hd H]]. unfold triples in Hd. apply in_map_iff in Hd. destruct Hd as [r [<- Hr]].
  apply In_nth with (d := []) in Hr. destruct Hr as [k [K E]]. exists k. split; [exact K|]. apply close_near; auto. rewrite E. exact H.
Qed.
Theorem covered : forall dim, (1 <= dim <= 3)%nat -> forall u, exists k, (k < length (anisotropic dim))%nat /\ near dim (coverage dim) u (rows (anisotropic dim) k).
Proof.
  intros dim D u. pose proof (flat_aniso dim D) as F. destruct dim as [|[|[|[|dim]]]]; [lia| | | |lia].
  - exists 0%nat. split; [cbn; lia|]. apply near_squares; [cbn; lra|]. unfold dot, rows, coverage, anisotropic, isotropic. cbn [rsum nth Nat.sub repeat]. apply Req_le. ring.
  - apply (some_near 2 anisotropic_2 98 100 F ltac:(lia) ltac:(lia) u).
    replace (third 2 u 2) with 0 by reflexivity. apply cover_2 with 14%nat (1000000000, 0, 0)%Z; [lia|left; reflexivity|exact check_2].
  - apply (some_near 3 anisotropic_3 971 1000 F ltac:(lia) ltac:(lia) u). apply cover_3 with 8%nat (0, 0, 1000000000)%Z; [lia|left; reflexivity|exact check_3].
Qed.

(** ** Normalized directions *)
Lemma dot_div : forall n u v s, dot n u (fun e => v e / s) = dot n u v / s.
Proof. intros n u v s. unfold dot. induction n as [|n IH]; cbn [rsum]; [unfold Rdiv; ring|]. rewrite IH. unfold Rdiv. ring. Qed.
Lemma dot_div2 : forall n v s, s <> 0 -> dot n (fun e => v e / s) (fun e => v e / s) = dot n v v / (s * s).
Proof. intros n v s S0. unfold dot. induction n as [|n IH]; cbn [rsum]; [unfold Rdiv; ring|]. rewrite IH. field. exact S0. Qed.
Lemma normalized_dot : forall dim u v, 0 < dot dim v v -> dot dim u (normalized dim v) = dot dim u v / len dim v.
Proof.
  intros dim u v H. transitivity (dot dim u (fun e => v e / len dim v)); [|apply dot_div].
  unfold dot. apply rsum_ext. intros e _. unfold normalized, len. destruct (Rlt_dec _ _); [reflexivity|contradiction].
Qed.
Lemma len_pos : forall dim v, 0 < dot dim v v -> 0 < len dim v.
Proof. intros dim v H. apply sqrt_lt_R0. exact H. Qed.
Lemma normalized_unit : forall dim v, 0 < dot dim v v -> dot dim (normalized dim v) (normalized dim v) = 1.
Proof.
  intros dim v H. pose proof (len_pos dim v H) as L. transitivity (dot dim (fun e => v e / len dim v) (fun e => v e / len dim v)).
  - unfold dot. apply rsum_ext. intros e _. unfold normalized. destruct (Rlt_dec _ _) as [Q|Q]; [reflexivity|]. unfold dot in Q. contradiction.
  - rewrite dot_div2 by lra. unfold len. rewrite sqrt_sqrt by lra. field. lra.
Qed.
Lemma len_normalized : forall dim v, 0 < dot dim v v -> len dim (normalized dim v) = 1.
Proof. intros dim v H. unfold len. rewrite normalized_unit by exact H. apply sqrt_1. Qed.
Lemma near_normalized : forall dim c u v, 0 < dot dim v v -> near dim c u v -> near dim c u (normalized dim v).
Proof.
  intros dim c u v H N. unfold near in *. rewrite len_normalized, normalized_dot by exact H. pose proof (len_pos dim v H) as L.
  unfold Rdiv. rewrite Rabs_mult, Rabs_inv, (Rabs_pos_eq (len dim v)) by lra. apply Rmult_le_reg_r with (len dim v); [exact L|].
  rewrite (Rmult_assoc (Rabs _)), Rinv_l by lra. lra.
Qed.
Lemma far_normalized : forall dim c u v, 0 < dot dim v v -> far dim c u v -> far dim c u (normalized dim v).
Proof.
  intros dim c u v H N. unfold far in *. rewrite len_normalized, normalized_dot by exact H. pose proof (len_pos dim v H) as L.
  unfold Rdiv. rewrite Rabs_mult, Rabs_inv, (Rabs_pos_eq (len dim v)) by lra. apply Rmult_le_reg_r with (len dim v); [exact L|].
  rewrite (Rmult_assoc (Rabs _)), Rinv_l by lra. lra.
Qed.
Lemma rows_nonzero : forall dim k, (1 <= dim <= 3)%nat -> (k < length (anisotropic dim))%nat -> 0 < dot dim (rows (anisotropic dim) k) (rows (anisotropic dim) k).
Proof. intros dim k D K. pose proof (units dim k D K) as H. unfold Rabs in H. destruct (Rcase_abs _); lra. Qed.

(** ** The settings *)
Lemma checked_spec : forall t, checked t = if Req_EM_T t (-1) then Ok None else if Rlt_dec 0 t then Ok (Some t) else Throw ExInvalidArgument.
Proof. reflexivity. Qed.
Theorem angle_setter : forall t c,
  ((t = -1 \/ 0 < t) -> exists c', set_angle_tolerance t c = Ok c' /\ same_but_angle c c' /\ (t = -1 -> angle_tolerance c' = None) /\ (0 < t -> angle_tolerance c' = Some t)) /\
  (~ (t = -1 \/ 0 < t) -> set_angle_tolerance t c = Throw ExInvalidArgument).
Proof.
  intros t c. unfold set_angle_tolerance, checked, automatic. destruct (Req_EM_T t (-1)) as [E|E]; [|destruct (Rlt_dec 0 t) as [P|P]]; cbn [bind].
  - split; [|tauto]. intros _. eexists. split; [reflexivity|]. split; [repeat split|]. cbn. split; [reflexivity|lra].
  - split; [|tauto]. intros _. eexists. split; [reflexivity|]. split; [repeat split|]. cbn. split; [lra|reflexivity].
  - split; [tauto|]. reflexivity.
Qed.
Theorem lag_setter : forall t c,
  ((t = -1 \/ 0 < t) -> exists c', set_lag_tolerance t c = Ok c' /\ same_but_lag c c' /\ (t = -1 -> lag_tolerance c' = None) /\ (0 < t -> lag_tolerance c' = Some t)) /\
  (~ (t = -1 \/ 0 < t) -> set_lag_tolerance t c = Throw ExInvalidArgument).
Proof.
  intros t c. unfold set_lag_tolerance, checked, automatic. destruct (Req_EM_T t (-1)) as [E|E]; [|destruct (Rlt_dec 0 t) as [P|P]]; cbn [bind].
  - split; [|tauto]. intros _. eexists. split; [reflexivity|]. split; [repeat split|]. cbn. split; [reflexivity|lra].
  - split; [|tauto]. intros _. eexists. split; [reflexivity|]. split; [repeat split|]. cbn. split; [lra|reflexivity].
  - split; [tauto|]. reflexivity.
Qed.
Lemma dot_zero : forall n v, dot n v v = 0 -> forall e, (e < n)%nat -> v e = 0.
Proof.
  intros n v. induction n as [|n IH]; intros H e E; [lia|]. unfold dot in *. cbn [rsum] in H. pose proof (dot_self n v) as P. unfold dot in P.
  pose proof (Rle_0_sqr (v n)) as Q. unfold Rsqr in Q. destruct (Nat.eq_dec e n) as [->|N].
  - assert (v n * v n = 0) as Z by lra. apply Rmult_integral in Z. tauto.
  - apply IH; [lra|lia].
Qed.
Theorem directions_setter : forall dim n v c,
  (n = 0%nat -> set_directions dim n v c = Throw ExInvalidArgument) /\
  (n <> 0%nat -> exists c', set_directions dim n v c = Ok c' /\ same_but_directions c c' /\ n_directions c' = n /\
     forall k, (len dim (v k) <> 0 -> len dim (directions c' k) = 1 /\ forall e, len dim (v k) * directions c' k e = v k e) /\
               (len dim (v k) = 0 -> forall e, directions c' k e = v k e)).
Proof.
  intros dim n v c. unfold set_directions. split; [intros ->; reflexivity|]. intros N. destruct (Nat.eqb_spec n 0); [contradiction|].
  eexists. split; [reflexivity|]. split; [repeat split|]. split; [reflexivity|]. intros k. cbn [directions].
  pose proof (dot_self dim (v k)) as P. split; intros L.
  - assert (0 < dot dim (v k) (v k)) as Q. { destruct P as [P|P]; [exact P|]. exfalso. apply L. unfold len. rewrite <- P. apply sqrt_0. }
    split; [apply len_normalized; exact Q|]. intros e. unfold normalized. destruct (Rlt_dec _ _); [|contradiction]. fold (len dim (v k)). field. exact L.
  - intros e. unfold normalized. destruct (Rlt_dec _ _) as [Q|Q]; [|reflexivity]. pose proof (len_pos _ _ Q). lra.
Qed.

(** ** Pairs and directions *)
Lemma size_pos : forall dim, (1 <= dim <= 3)%nat -> (0 < length (anisotropic dim))%nat.
Proof. intros dim D. destruct dim as [|[|[|[|m]]]]; [lia| | | |lia]; cbn; lia. Qed.
Section Counting.
Variable dim : nat.
Variable points : nat -> nat -> R.
Lemma counted_takes : forall c, (0 < n_directions c)%nat -> (match angle_tolerance c with None => True | Some a => 0 <= cos a end) -> forall i j k,
  counted dim points c i j k <-> takes dim (n_directions c) points (directions c) (angle_tolerance c) i j k.
Proof using. intros c N A i j k. unfold counted. apply takes_spec; assumption. Qed.
Theorem default_all : forall distance lags i j k, counted dim points (make dim distance lags) i j k <-> k = 0%nat.
Proof using. intros distance lags i j k. unfold counted, make, targets. cbn [n_directions angle_tolerance length isotropic Nat.sub arg_max In]. split; [intros [<-|[]]; reflexivity|intros ->; left; reflexivity]. Qed.

Variable c0 c : calculator.
Hypothesis D : (1 <= dim <= 3)%nat.
Hypothesis SD : set_directions dim (length (anisotropic dim)) (rows (anisotropic dim)) c0 = Ok c.
Lemma set_is : n_directions c = length (anisotropic dim) /\ (forall k, directions c k = normalized dim (rows (anisotropic dim) k)) /\ angle_tolerance c = angle_tolerance c0.
Proof using D SD.
  revert SD. unfold set_directions. pose proof (size_pos dim D) as P. destruct (Nat.eqb_spec (length (anisotropic dim)) 0) as [E|E]; [lia|].
  intros H. injection H as <-. repeat split.
Qed.
Theorem nearest : angle_tolerance c = None -> forall i j k, counted dim points c i j k -> near dim (coverage dim) (lag points i j) (directions c k).
Proof using D SD.
  intros A i j k H. destruct set_is as [N [E _]]. apply counted_takes in H; [|rewrite N; apply size_pos; exact D|rewrite A; exact I].
  destruct H as [K H]. rewrite A in H. cbv beta zeta in H. destruct H as [H _]. destruct (covered dim D (lag points i j)) as [l [L Q]].
  pose proof (near_normalized _ _ _ _ (rows_nonzero dim l D L) Q) as Q'. specialize (H l). rewrite N in H, K. specialize (H L).
  unfold near in *. rewrite (E l) in H. rewrite len_normalized in Q' by (apply rows_nonzero; assumption).
  rewrite (E k) at 1. rewrite len_normalized by (apply rows_nonzero; assumption). lra.
Qed.
Theorem wide_enough : forall a, angle_tolerance c = Some a -> 0 <= cos a <= coverage dim -> forall i j, exists k, counted dim points c i j k.
Proof using D SD.
  intros a A B i j. destruct set_is as [N [E _]]. destruct (covered dim D (lag points i j)) as [l [L Q]].
  pose proof (near_normalized _ _ _ _ (rows_nonzero dim l D L) Q) as Q'. exists l. apply counted_takes; [rewrite N; apply size_pos; exact D|rewrite A; lra|].
  split; [rewrite N; exact L|]. rewrite A. cbv beta zeta. rewrite (E l). unfold near in Q'. rewrite len_normalized in Q' by (apply rows_nonzero; assumption).
  unfold dist. fold (len dim (lag points i j)). pose proof (sqrt_pos (dot dim (lag points i j) (lag points i j))) as P. fold (len dim (lag points i j)) in P.
  apply Rle_trans with (coverage dim * len dim (lag points i j)); [|lra]. rewrite Rmult_comm. apply Rmult_le_compat_r; lra.
Qed.
End Counting.

(** ** A tolerance that is too small *)
Definition hole_ok : bool := forallb (fun d => let z := (zdot (-910, 0, 415) d)%Z in (1000 * 1000 * (z * z) <? 972 * 972 * (910 * 910 + 415 * 415) * zdot d d)%Z) (triples anisotropic_3).
Lemma hole_checked : hole_ok = true.
Proof. vm_compute. reflexivity. Qed.
Theorem too_narrow : forall c0 c a, set_directions 3 (length (anisotropic 3)) (rows (anisotropic 3)) c0 = Ok c -> angle_tolerance c = Some a ->
  972 / 1000 <= cos a -> forall k, ~ counted 3 hole c 0 1 k.
Proof.
  intros c0 c a SD A B k H. destruct (set_is 3 c0 c ltac:(lia) SD) as [N [E _]].
  apply counted_takes in H; [|rewrite N; cbn; lia|rewrite A; lra]. destruct H as [K H]. rewrite A in H. cbv beta zeta in H. rewrite (E k) in H. rewrite N in K.
  pose proof (rows_nonzero 3 k ltac:(lia) K) as P. rewrite normalized_dot in H by exact P. pose proof hole_checked as Q. unfold hole_ok in Q. rewrite forallb_forall in Q.
  specialize (Q (triple (nth k anisotropic_3 [])) ltac:(apply in_map; apply nth_In; exact K)). cbv zeta in Q. apply Z.ltb_lt in Q. apply IZR_lt in Q.
  assert (near 3 (972 / 1000) (lag hole 0 1) (rows anisotropic_3 k)) as M.
  { unfold near. change (rows anisotropic_3 k) with (rows (anisotropic 3) k). pose proof (len_pos _ _ P) as LP.
    unfold Rdiv in H. rewrite Rabs_mult, Rabs_inv, (Rabs_pos_eq (len 3 _)) in H by lra.
    apply (Rmult_le_compat_r (len 3 (rows (anisotropic 3) k))) in H; [|lra]. rewrite (Rmult_assoc (Rabs _)), Rinv_l in H by lra.
    unfold dist in H. fold (len 3 (lag hole 0 1)) in H. pose proof (sqrt_pos (dot 3 (lag hole 0 1) (lag hole 0 1))) as S0. fold (len 3 (lag hole 0 1)) in S0.
    apply Rle_trans with (len 3 (lag hole 0 1) * cos a * len 3 (rows (anisotropic 3) k)); [|lra].
    apply Rmult_le_compat_r; [lra|]. rewrite Rmult_comm. apply Rmult_le_compat_l; lra. }
  apply near_squares in M; [|lra]. pose proof (flat_aniso 3 ltac:(lia)) as F. change (anisotropic 3) with anisotropic_3 in *.
  rewrite dot_rows2 with (1 := F) in M by assumption. rewrite dot_rows with (1 := F) in M by assumption. rewrite dot_third in M by lia.
  cbn [third Nat.ltb Nat.leb] in M. unfold lag, hole in M.
  destruct (triple (nth k anisotropic_3 [])) as [[d0 d1] d2]. cbn [rdot zdot] in M, Q. rewrite ?mult_IZR, ?plus_IZR, ?mult_IZR in Q. rewrite ?plus_IZR, ?mult_IZR in M.
  revert M Q. set (x := IZR d0). set (y := IZR d1). set (z := IZR d2). intros M Q. pose proof nano_pos as NP.
  assert (nano * nano * (972 / 1000 * (972 / 1000) * (910 * 910 + 415 * 415) * (x * x + y * y + z * z)) <= nano * nano * ((-910 * x + 415 * z) * (-910 * x + 415 * z))) as M2 by lra.
  apply Rmult_le_reg_l in M2; [|apply Rmult_lt_0_compat; exact NP]. lra.
Qed.

(** ** Opposite or longer directions *)
Lemma dot_scal_r : forall n u v (s : R), dot n u (fun e => s * v e) = s * dot n u v.
Proof. intros n u v s. unfold dot. induction n as [|n IH]; cbn [rsum]; [ring|]. rewrite IH. ring. Qed.
Lemma dot_scal_both : forall n v (s : R), dot n (fun e => s * v e) (fun e => s * v e) = s * s * dot n v v.
Proof. intros n v s. unfold dot. induction n as [|n IH]; cbn [rsum]; [ring|]. rewrite IH. ring. Qed.
Lemma normalized_square : forall dim u v s, s <> 0 ->
  dot dim u (normalized dim (fun e => s * v e)) * dot dim u (normalized dim (fun e => s * v e)) = dot dim u (normalized dim v) * dot dim u (normalized dim v).
Proof.
  intros dim u v s H. pose proof (dot_self dim v) as [P|P].
  - assert (0 < s * s) as SS by (destruct (Rtotal_order s 0) as [Q|[Q|Q]]; [nra|contradiction|nra]).
    assert (0 < dot dim (fun e => s * v e) (fun e => s * v e)) as P' by (rewrite dot_scal_both; apply Rmult_lt_0_compat; assumption).
    rewrite !normalized_dot by assumption. rewrite dot_scal_r. pose proof (len_pos _ _ P) as L. pose proof (len_pos _ _ P') as L'.
    assert (len dim (fun e => s * v e) * len dim (fun e => s * v e) = s * s * (len dim v * len dim v)) as E.
    { unfold len. rewrite !sqrt_sqrt by (apply dot_self). apply dot_scal_both. }
    transitivity (s * s * (dot dim u v * dot dim u v) / (len dim (fun e => s * v e) * len dim (fun e => s * v e))); [field; lra|]. rewrite E. field. split; [lra|exact H].
  - symmetry in P. assert (dot dim (fun e => s * v e) (fun e => s * v e) = 0) as P' by (rewrite dot_scal_both, P; ring).
    assert (forall w, dot dim w w = 0 -> dot dim u (normalized dim w) = 0) as Z.
    { intros w W. transitivity (dot dim u (fun e => 0 * 0)).
      - unfold dot at 1 2. apply rsum_ext. intros e E. unfold normalized. destruct (Rlt_dec _ _) as [Q|Q]; [lra|]. rewrite (dot_zero dim w W e E). ring.
      - change (dot dim u (fun e => 0 * (fun _ : nat => 0) e) = 0). rewrite dot_scal_r. ring. }
    rewrite !Z by assumption. reflexivity.
Qed.
Lemma arg_max_ext : forall f g m, (forall k, (k <= m)%nat -> f k = g k) -> arg_max f m = arg_max g m.
Proof.
  intros f g m. induction m as [|m IH]; intros H; [reflexivity|]. cbn [arg_max]. rewrite IH by (intros; apply H; lia).
  pose proof (arg_max_spec 1 ltac:(lia) g m) as [B _]. rewrite (H (arg_max g m)) by lia. rewrite (H (S m)) by lia. reflexivity.
Qed.
Lemma targets_ext : forall dim points n d d' a, (0 < n)%nat -> (forall i j k, (k < n)%nat -> squared_dot dim points d i j k = squared_dot dim points d' i j k) ->
  forall i j, targets dim points n d a i j = targets dim points n d' a i j.
Proof.
  intros dim points n d d' [a|] N H i j; unfold targets.
  - apply filter_ext_in. intros k K. apply in_seq in K. rewrite H by lia. reflexivity.
  - f_equal. apply arg_max_ext. intros k K. apply H. lia.
Qed.
Lemma each_ext : forall {A B : Type} (f g : A -> B -> outcome B) l, (forall x b, f x b = g x b) -> forall b, each f l b = each g l b.
Proof. intros A B f g l H. induction l as [|x l IH]; intros b; [reflexivity|]. cbn [each]. rewrite H. destruct (g x b); cbn [bind]; auto. Qed.
Theorem scaled_directions : forall dim n_points points values n v (s : nat -> R) c c1 c2 schedule, (forall k, s k <> 0) ->
  set_directions dim n v c = Ok c1 -> set_directions dim n (fun k e => s k * v k e) c = Ok c2 ->
  run dim n_points points values c1 schedule = run dim n_points points values c2 schedule.
Proof.
  intros dim n_points points values n v s c c1 c2 schedule H H1 H2. unfold set_directions in *. destruct (Nat.eqb_spec n 0) as [E|E]; [discriminate|].
  injection H1 as <-. injection H2 as <-. unfold run. cbn [lag_distance num_lags lag_tolerance n_directions directions angle_tolerance].
  unfold calculate. f_equal. apply each_ext. intros rs acc. f_equal. unfold thread. apply each_ext. intros i bs. unfold row. apply each_ext. intros j bs'.
  rewrite (targets_ext dim points n (fun k => normalized dim (v k)) (fun k => normalized dim (fun e => s k * v k e)) (angle_tolerance c)); [reflexivity|lia|].
  intros i' j' k K. unfold squared_dot. symmetry. apply normalized_square. apply H.
Qed.

(** ** Coincident points *)
Lemma squared_dot_zero : forall dim points d i j k, (forall e, (e < dim)%nat -> points i e = points j e) -> squared_dot dim points d i j k = 0.
Proof.
  intros dim points d i j k H. unfold squared_dot. assert (dot dim (lag points i j) (d k) = 0) as ->; [|ring].
  unfold dot. replace 0 with (rsum dim (fun _ => 0)).
  - apply rsum_ext. intros e E. unfold lag. rewrite (H e E). ring.
  - clear H. induction dim as [|dim IH]; cbn [rsum]; lra.
Qed.
Lemma arg_max_const : forall f m, (forall k, f k = 0) -> arg_max f m = 0%nat.
Proof. intros f m H. induction m as [|m IH]; [reflexivity|]. cbn [arg_max]. rewrite IH, !H. destruct (Rlt_dec 0 0); [lra|reflexivity]. Qed.
Theorem coincident : forall dim points c i j, (forall e, (e < dim)%nat -> points i e = points j e) -> (0 < n_directions c)%nat -> forall k,
  counted dim points c i j k <-> (match angle_tolerance c with None => k = 0%nat | Some _ => (k < n_directions c)%nat end).
Proof.
  intros dim points c i j H N k. unfold counted, targets. destruct (angle_tolerance c) as [a|].
  - rewrite filter_In, in_seq. assert (dot dim (lag points i j) (lag points i j) = 0) as Z.
    { unfold dot. replace 0 with (rsum dim (fun _ => 0)).
      - apply rsum_ext. intros e E. unfold lag. rewrite (H e E). ring.
      - clear H. induction dim as [|dim IH]; cbn [rsum]; lra. }
    rewrite Z, squared_dot_zero by exact H. destruct (Rle_dec _ _) as [L|L]; [|exfalso; apply L; lra]. split; [intros [? _]; lia|intros ?; split; [lia|reflexivity]].
  - rewrite arg_max_const by (intros l; apply squared_dot_zero; exact H). cbn [In]. split; [intros [<-|[]]; reflexivity|intros ->; left; reflexivity].
Qed.

Lemma default_axis : forall dim distance lags, (let c := make dim distance lags in lag_distance c = distance /\ num_lags c = lags /\ lag_tolerance c = None /\ angle_tolerance c = None /\ n_directions c = 1%nat) /\
  forall e, directions (make dim distance lags) 0 e = if Nat.eqb e 0 then 1 else 0.
Proof.
  intros dim distance lags. split; [cbv zeta; repeat split|]. intros e. cbn [directions make]. unfold Directions.rows, isotropic, nano. cbn [nth]. destruct e as [|e]; cbn [nth Nat.eqb].
  - field.
  - rewrite nth_repeat. ring.
Qed.
