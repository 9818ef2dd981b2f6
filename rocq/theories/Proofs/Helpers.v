From Coq Require Import List Arith NArith ZArith Bool Lia Permutation Sorted Reals Lra.
From Verif Require Import Proofs.LatticeVertices.
From Verif Require Import Model.Outcome Model.Helpers Spec.Helpers Model.DomainDivider.
From Verif Require Model.Lattice Model.MeshDefects.
Import ListNotations.

(** ** Bits *)
Lemma shifted_bits : forall (f : nat -> bool) n, length (filter f (seq 1 n)) = length (filter (fun i => f (S i)) (seq 0 n)).
Proof.
  intros f n. rewrite <- seq_shift, <- (map_id (filter _ (seq 0 n))). generalize (seq 0 n). induction l as [|a l IH]; cbn; auto.
  destruct (f (S a)); cbn; auto.
Qed.
Lemma count_set_bits : forall w x, (x < 2 ^ N.of_nat w)%N -> bit_count x = length (set_bits w x).
Proof.
  induction w as [|w IH]; intros x H.
  - change (2 ^ N.of_nat 0)%N with 1%N in H. assert (x = 0%N) as -> by lia. reflexivity.
  - unfold set_bits. cbn [seq filter]. rewrite Nat2N.inj_succ, N.pow_succ_r' in H.
    assert (Q : length (filter (fun i => N.testbit x (N.of_nat i)) (seq 1 w)) = bit_count (N.div2 x)).
    { rewrite IH by (rewrite N.div2_div; apply N.div_lt_upper_bound; lia).
      rewrite (shifted_bits (fun i => N.testbit x (N.of_nat i))). unfold set_bits. f_equal. apply filter_ext. intros i.
      rewrite N.div2_spec, N.shiftr_spec', Nat2N.inj_succ. f_equal. lia. }
    destruct (N.testbit x (N.of_nat 0)) eqn:T; cbn [length]; rewrite Q; destruct x as [|[p|p|]]; cbn in T; try discriminate; reflexivity.
Qed.
Lemma bit_1_spec : forall e i, N.testbit (N.shiftl 1 (N.of_nat e)) (N.of_nat i) = Nat.eqb i e.
Proof.
  intros e i. rewrite N.shiftl_1_l. destruct (Nat.eqb_spec i e) as [->|N]; [apply N.pow2_bits_true|apply N.pow2_bits_false; lia].
Qed.
Lemma mod_bits : forall w x i, N.testbit (x mod 2 ^ N.of_nat w) (N.of_nat i) = (N.testbit x (N.of_nat i) && (i <? w)).
Proof.
  intros w x i. destruct (Nat.ltb_spec i w) as [L|L].
  - rewrite N.mod_pow2_bits_low by lia. rewrite andb_true_r. reflexivity.
  - rewrite N.mod_pow2_bits_high by lia. rewrite andb_false_r. reflexivity.
Qed.
Lemma bits_eq : forall x y, (forall i, N.testbit x (N.of_nat i) = N.testbit y (N.of_nat i)) -> x = y.
Proof. intros x y H. apply N.bits_inj. intros i. rewrite <- (N2Nat.id i). apply H. Qed.
Lemma high_bit : forall w x i, (x < 2 ^ N.of_nat w)%N -> w <= i -> N.testbit x (N.of_nat i) = false.
Proof.
  intros w x i H L. destruct (N.eq_dec x 0) as [->|Z]; [apply N.bits_0|]. apply N.bits_above_log2. apply N.log2_lt_pow2; [lia|].
  eapply N.lt_le_trans; [exact H|]. apply N.pow_le_mono_r; lia.
Qed.
Lemma low_number : forall w x, (forall i, w <= i -> N.testbit x (N.of_nat i) = false) -> (x < 2 ^ N.of_nat w)%N.
Proof.
  intros w x H. assert (x = x mod 2 ^ N.of_nat w)%N as ->; [|apply N.mod_lt, N.pow_nonzero; lia].
  apply bits_eq. intros i. rewrite mod_bits. destruct (Nat.ltb_spec i w); [rewrite andb_true_r; reflexivity|rewrite H by lia; reflexivity].
Qed.
Lemma trailing_spec : forall p, N.testbit (N.pos p) (N.of_nat (trailing_zeros p)) = true /\ forall i, i < trailing_zeros p -> N.testbit (N.pos p) (N.of_nat i) = false.
Proof.
  induction p as [p IH|p IH|]; cbn [trailing_zeros].
  - split; [reflexivity|intros; lia].
  - destruct IH as [A B]. split.
    + rewrite Nat2N.inj_succ. change (N.pos p~0) with (2 * N.pos p)%N. rewrite N.testbit_even_succ by lia. exact A.
    + intros [|i] L; [reflexivity|]. rewrite Nat2N.inj_succ. change (N.pos p~0) with (2 * N.pos p)%N. rewrite N.testbit_even_succ by lia. apply B. lia.
  - split; [reflexivity|intros; lia].
Qed.
Lemma pop_bits : forall w p i, (N.pos p < 2 ^ N.of_nat w)%N ->
  N.testbit (snd (bit_pop w (N.pos p))) (N.of_nat i) = (N.testbit (N.pos p) (N.of_nat i) && negb (Nat.eqb i (trailing_zeros p))).
Proof.
  intros w p i H. unfold bit_pop, bit_peek. cbv zeta. cbn [snd]. rewrite mod_bits, N.lxor_spec. replace (Z.to_N (Z.of_nat (trailing_zeros p))) with (N.of_nat (trailing_zeros p)) by lia.
  rewrite bit_1_spec. destruct (Nat.eqb_spec i (trailing_zeros p)) as [->|NE].
  - rewrite (proj1 (trailing_spec p)). reflexivity.
  - rewrite xorb_false_r, andb_true_r. destruct (Nat.ltb_spec i w); [apply andb_true_r|]. rewrite (high_bit w) by auto. reflexivity.
Qed.
Lemma filter_from : forall f n s, filter f (seq s n) = match find f (seq s n) with None => [] | Some i => i :: filter (fun j => f j && negb (Nat.eqb j i)) (seq s n) end.
Proof.
  intros f. induction n as [|n IH]; intros s; cbn [seq filter find]; auto.
  destruct (f s) eqn:F.
  - rewrite Nat.eqb_refl. cbn [andb negb]. f_equal. apply filter_ext_in. intros j J. apply in_seq in J.
    destruct (Nat.eqb_spec j s); [lia|]. rewrite andb_true_r. reflexivity.
  - cbn [andb]. apply IH.
Qed.
Lemma find_first : forall f n s k, s <= k < s + n -> f k = true -> (forall i, i < k -> f i = false) -> find f (seq s n) = Some k.
Proof.
  intros f. induction n as [|n IH]; intros s k B T F; [lia|]. cbn [seq find]. destruct (Nat.eq_dec s k) as [->|NE]; [rewrite T; reflexivity|].
  rewrite F by lia. apply IH; auto. lia.
Qed.
Lemma trailing_low : forall w p, (N.pos p < 2 ^ N.of_nat w)%N -> trailing_zeros p < w.
Proof.
  intros w p H. destruct (Nat.lt_ge_cases (trailing_zeros p) w) as [|L]; auto. pose proof (proj1 (trailing_spec p)) as Q. rewrite (high_bit w) in Q by auto. discriminate.
Qed.
Lemma set_bits_pop : forall w p, (N.pos p < 2 ^ N.of_nat w)%N -> set_bits w (N.pos p) = trailing_zeros p :: set_bits w (snd (bit_pop w (N.pos p))).
Proof.
  intros w p H. unfold set_bits. rewrite filter_from. destruct (trailing_spec p) as [T F].
  rewrite (find_first _ w 0 (trailing_zeros p)) by (auto; pose proof (trailing_low w p H); lia). f_equal. apply filter_ext. intros i. symmetry. apply pop_bits. exact H.
Qed.
Lemma pop_low : forall w x, (x < 2 ^ N.of_nat w)%N -> (snd (bit_pop w x) < 2 ^ N.of_nat w)%N.
Proof. intros w [|p] H; [exact H|]. unfold bit_pop. cbv zeta. cbn [snd]. apply N.mod_lt, N.pow_nonzero. lia. Qed.
Lemma set_bits_0 : forall w x, (x < 2 ^ N.of_nat w)%N -> set_bits w x = [] -> x = 0%N.
Proof. intros w [|p] H E; auto. rewrite set_bits_pop in E by auto. discriminate. Qed.
Lemma set_bits_zero : forall w, set_bits w 0 = [].
Proof. intros w. unfold set_bits. induction (seq 0 w) as [|a l IH]; auto. Qed.
Lemma pops_set_bits : forall fuel w x, (x < 2 ^ N.of_nat w)%N -> w <= fuel -> pops fuel w x = map Z.of_nat (set_bits w x).
Proof.
  intros fuel w. assert (G : forall f x, (x < 2 ^ N.of_nat w)%N -> length (set_bits w x) <= f -> pops f w x = map Z.of_nat (set_bits w x)).
  { induction f as [|f IH]; intros x H L.
    - destruct (set_bits w x) eqn:E; [reflexivity|cbn in L; lia].
    - destruct x as [|p]; [rewrite set_bits_zero; reflexivity|].
      pose proof (pop_low w (N.pos p) H) as LP. rewrite set_bits_pop in * by auto. cbn [pops length map] in *. cbv zeta.
      assert (E : fst (bit_pop w (N.pos p)) = Z.of_nat (trailing_zeros p)) by reflexivity. rewrite E.
      destruct (Z.eqb_spec (Z.of_nat (trailing_zeros p)) (-1)); [lia|]. f_equal. apply IH; [exact LP|lia]. }
  intros x H L. apply G; auto. unfold set_bits. etransitivity; [|exact L]. rewrite <- (seq_length w 0) at 2.
  generalize (seq 0 w). induction l as [|a l I]; cbn; [lia|]. destruct (N.testbit x (N.of_nat a)); cbn; lia.
Qed.
Lemma peek_set_bits : forall w x, (x < 2 ^ N.of_nat w)%N -> bit_peek x = match set_bits w x with [] => (-1)%Z | i :: _ => Z.of_nat i end.
Proof.
  intros w [|p] H.
  - rewrite set_bits_zero. reflexivity.
  - rewrite set_bits_pop by auto. reflexivity.
Qed.

(** ** Nodes *)
Lemma bits16_low : forall x, (bits16 x < 2 ^ 16)%N.
Proof. intros x. apply N.mod_lt. discriminate. Qed.
Lemma bits16_bits : forall x i, N.testbit (bits16 x) (N.of_nat i) = (N.testbit x (N.of_nat i) && (i <? 16)).
Proof. intros x i. exact (mod_bits 16 x i). Qed.
Lemma edge_bits : forall e i, e < 14 -> N.testbit (edge_bit e) (N.of_nat i) = Nat.eqb i e.
Proof.
  intros e i L. unfold edge_bit. rewrite bits16_bits, bit_1_spec. destruct (Nat.eqb_spec i e) as [->|]; auto. destruct (Nat.ltb_spec e 16); [reflexivity|lia].
Qed.
Lemma mask_bits : forall e i, e < 14 -> N.testbit (edge_count_mask e) (N.of_nat i) = Nat.ltb i e.
Proof.
  intros e i L. unfold edge_count_mask. rewrite bits16_bits. assert (edge_bit e = 2 ^ N.of_nat e)%N as ->.
  { apply bits_eq. intros j. rewrite edge_bits by auto. rewrite <- N.shiftl_1_l, bit_1_spec. reflexivity. }
  replace (2 ^ N.of_nat e - 1)%N with (N.ones (N.of_nat e)) by (rewrite N.ones_equiv; lia).
  destruct (Nat.ltb_spec i e) as [Q|Q].
  - rewrite N.ones_spec_low by lia. destruct (Nat.ltb_spec i 16); [reflexivity|lia].
  - rewrite N.ones_spec_high by lia. reflexivity.
Qed.
Lemma has_vertex_bit : forall n e, e < 14 -> has_vertex n e = N.testbit (b_near n) (N.of_nat e).
Proof.
  intros n e L. unfold has_vertex. destruct (N.eqb_spec (N.land (b_near n) (edge_bit e)) 0) as [Z|Z]; cbn [negb].
  - assert (Q : N.testbit (N.land (b_near n) (edge_bit e)) (N.of_nat e) = false) by (rewrite Z; apply N.bits_0).
    rewrite N.land_spec, edge_bits, Nat.eqb_refl, andb_true_r in Q by auto. congruence.
  - destruct (N.testbit (b_near n) (N.of_nat e)) eqn:T; auto. exfalso. apply Z. apply bits_eq. intros i. rewrite N.land_spec, edge_bits, N.bits_0 by auto.
    destruct (Nat.eqb_spec i e) as [->|]; [rewrite T; reflexivity|apply andb_false_r].
Qed.
Lemma mask_count : forall x e, e < 14 -> bit_count (bits16 (N.land x (edge_count_mask e))) = length (filter (fun i => N.testbit x (N.of_nat i)) (seq 0 e)).
Proof.
  intros x e L. rewrite (count_set_bits 16) by apply bits16_low. unfold set_bits.
  replace 16 with (e + (16 - e)) by lia. rewrite seq_app, filter_app, app_length. rewrite Nat.add_0_l.
  assert (filter (fun i => N.testbit (bits16 (N.land x (edge_count_mask e))) (N.of_nat i)) (seq e (16 - e)) = []) as ->.
  { assert (B : forall i, In i (seq e (16 - e)) -> e <= i) by (intros i I0; apply in_seq in I0; lia).
    induction (seq e (16 - e)) as [|a l IH]; auto. cbn [filter]. rewrite bits16_bits, N.land_spec, mask_bits by auto.
    destruct (Nat.ltb_spec a e) as [Q|Q]; [specialize (B a (or_introl eq_refl)); lia|]. rewrite andb_false_r. cbn [andb]. apply IH. intros i I0. apply B. right. auto. }
  cbn [length]. rewrite Nat.add_0_r. f_equal. apply filter_ext_in. intros i I0. apply in_seq in I0. rewrite bits16_bits, N.land_spec, mask_bits by auto.
  destruct (Nat.ltb_spec i e); [|lia]. destruct (Nat.ltb_spec i 16); [|lia]. rewrite !andb_true_r. reflexivity.
Qed.
Lemma node_rank : forall b n e, same_node b n -> e < 14 -> bit_count (bits16 (N.land (b_near b) (edge_count_mask e))) = Lattice.rank (Lattice.n_near n) e.
Proof.
  intros b n e (_ & _ & _ & S0) L. rewrite mask_count by auto. unfold Lattice.rank. f_equal. apply filter_ext_in. intros i I0. apply in_seq in I0. apply S0. lia.
Qed.
Lemma near_bits : forall x e i, e < 14 -> (x < 2 ^ 16)%N -> N.testbit (bits16 (N.lor x (edge_bit e))) (N.of_nat i) = (N.testbit x (N.of_nat i) || Nat.eqb i e).
Proof.
  intros x e i L H. rewrite bits16_bits, N.lor_spec, edge_bits by auto. destruct (Nat.ltb_spec i 16) as [Q|Q]; [apply andb_true_r|].
  rewrite (high_bit 16 x i) by (auto; lia). destruct (Nat.eqb_spec i e); [lia|]. reflexivity.
Qed.
Lemma node_insert : forall b n v e, same_node b n -> e < 14 -> same_outcome same_node (insert_vertex b v e) (Lattice.insert_vertex n v e).
Proof.
  intros b n v e S0 L. pose proof S0 as (B1 & B2 & BV & BT). unfold insert_vertex, Lattice.insert_vertex. cbv zeta.
  set (near := bits16 (N.lor (b_near b) (edge_bit e))).
  assert (NT : forall i, i < 14 -> N.testbit near (N.of_nat i) = MeshDefects.upd (Lattice.n_near n) e true i).
  { intros i I0. unfold near. rewrite near_bits by auto. unfold MeshDefects.upd. rewrite (proj1 (BT i I0)). destruct (Nat.eqb_spec i e); [apply orb_true_r|apply orb_false_r]. }
  assert (R : bit_count (bits16 (N.land near (edge_count_mask e))) = Lattice.rank (MeshDefects.upd (Lattice.n_near n) e true) e).
  { rewrite mask_count by auto. unfold Lattice.rank. f_equal. apply filter_ext_in. intros i I0. apply in_seq in I0. apply NT. lia. }
  rewrite R, BV. destruct (_ <=? _); cbn [same_outcome]; auto. split; [apply bits16_low|]. split; [exact B2|]. split; [reflexivity|].
  intros i I0. cbn [b_near b_all Lattice.n_near Lattice.n_all]. split; [apply NT; auto|apply BT; auto].
Qed.
Lemma node_vertex : forall b n e, same_node b n -> e < 14 -> vertex b e = Lattice.vertex n e.
Proof. intros b n e S0 L. unfold vertex, Lattice.vertex. rewrite (node_rank b n e S0 L). destruct S0 as (_ & _ & -> & _). reflexivity. Qed.
Lemma node_set : forall b n e, same_node b n -> e < 14 -> same_node (set_intersection b e) (Lattice.set_intersection n e).
Proof.
  intros b n e (B1 & B2 & BV & BT) L. unfold set_intersection, Lattice.set_intersection. assert (B16 : (b_all b < 2 ^ 16)%N) by (eapply N.lt_trans; [exact B2|reflexivity]).
  split; [exact B1|]. split.
  - cbn [b_all]. apply (low_number 14). intros i I0. rewrite near_bits by auto. rewrite (high_bit 14 (b_all b) i) by auto. destruct (Nat.eqb_spec i e); [lia|reflexivity].
  - split; [exact BV|]. intros i I0. cbn [b_near b_all Lattice.n_near Lattice.n_all]. split; [apply BT; auto|]. rewrite near_bits by auto.
    unfold MeshDefects.upd. rewrite (proj2 (BT i I0)). destruct (Nat.eqb_spec i e); [apply orb_true_r|apply orb_false_r].
Qed.
Lemma node_free : forall b n, same_node b n -> is_free b = Lattice.is_free n.
Proof.
  intros b n (B1 & B2 & BV & BT). unfold is_free, Lattice.is_free. destruct (N.eqb_spec (b_all b) 0) as [Z|Z].
  - symmetry. apply negb_true_iff. destruct (existsb _ _) eqn:X; auto. apply existsb_exists in X. destruct X as (i & I0 & T). apply in_seq in I0.
    rewrite <- (proj2 (BT i ltac:(lia))), Z, N.bits_0 in T. discriminate.
  - symmetry. apply negb_false_iff. destruct (existsb (Lattice.n_all n) (seq 0 14)) eqn:X; auto. exfalso. apply Z. apply bits_eq. intros i. rewrite N.bits_0.
    destruct (Nat.lt_ge_cases i 14) as [L|L]; [|apply (high_bit 14); auto]. rewrite (proj2 (BT i L)).
    destruct (Lattice.n_all n i) eqn:T; auto. assert (existsb (Lattice.n_all n) (seq 0 14) = true); [|congruence]. apply existsb_exists. exists i. split; auto. apply in_seq. lia.
Qed.
Lemma node_new : same_node new_bnode Lattice.new_node.
Proof. repeat split; try reflexivity; intros; apply N.bits_0. Qed.

(** A node is a map from edges to vertices. *)
Definition table (n : bnode) (T : nat -> option nat) : Prop :=
  (b_near n < 2 ^ 14)%N /\ (forall e, e < 14 -> (N.testbit (b_near n) (N.of_nat e) = true <-> T e <> None)) /\
  b_vis n = flat_map (fun e => match T e with Some v => [v] | None => [] end) (seq 0 14).
Lemma table_rank : forall n T e, table n T -> e <= 14 -> length (filter (fun i => N.testbit (b_near n) (N.of_nat i)) (seq 0 e)) =
  length (flat_map (fun e => match T e with Some v => [v] | None => [] end) (seq 0 e)).
Proof.
  intros n T e (_ & B & _) L. assert (Q : forall i, In i (seq 0 e) -> i < 14) by (intros i I0; apply in_seq in I0; lia).
  induction (seq 0 e) as [|a l IH]; auto. cbn [filter flat_map]. rewrite app_length. specialize (B a (Q a (or_introl eq_refl))).
  specialize (IH (fun i I0 => Q i (or_intror I0))). destruct (N.testbit (b_near n) (N.of_nat a)), (T a) eqn:TA; cbn [length]; try (rewrite IH; reflexivity).
  - exfalso. apply B; auto.
  - exfalso. assert (false = true) by (apply B; discriminate). discriminate.
Qed.
Lemma table_split : forall (T : nat -> option nat) e, e < 14 -> flat_map (fun e => match T e with Some v => [v] | None => [] end) (seq 0 14) =
  flat_map (fun e => match T e with Some v => [v] | None => [] end) (seq 0 e) ++ match T e with Some v => [v] | None => [] end ++
  flat_map (fun e => match T e with Some v => [v] | None => [] end) (seq (S e) (13 - e)).
Proof.
  intros T e L. replace 14 with (e + S (13 - e)) at 1 by lia. rewrite seq_app, flat_map_app. cbn [seq flat_map]. rewrite Nat.add_0_l. reflexivity.
Qed.
Lemma flat_map_same : forall (f g : nat -> list nat) l, (forall x, In x l -> f x = g x) -> flat_map f l = flat_map g l.
Proof. intros f g l H. induction l as [|a l IH]; auto. cbn. rewrite (H a) by (left; auto). rewrite IH; auto. intros x X. apply H. right. auto. Qed.
Lemma table_insert : forall n T e v, table n T -> e < 14 -> T e = None ->
  exists n', insert_vertex n v e = Ok n' /\ table n' (fun i => if Nat.eqb i e then Some v else T i).
Proof.
  intros n T e v TB L NE. pose proof TB as (B1 & B & V). unfold insert_vertex. cbv zeta.
  assert (B16 : (b_near n < 2 ^ 16)%N) by (eapply N.lt_trans; [exact B1|reflexivity]).
  assert (R : bit_count (bits16 (N.land (bits16 (N.lor (b_near n) (edge_bit e))) (edge_count_mask e))) =
    length (flat_map (fun e => match T e with Some v => [v] | None => [] end) (seq 0 e))).
  { rewrite mask_count by auto. rewrite <- (table_rank n T e TB) by lia. f_equal. apply filter_ext_in. intros i I0. apply in_seq in I0.
    rewrite near_bits by auto. destruct (Nat.eqb_spec i e); [lia|apply orb_false_r]. }
  rewrite R, V, (table_split T e L), NE. cbn [app]. set (A := flat_map _ (seq 0 e)). set (C := flat_map _ (seq (S e) (13 - e))).
  rewrite app_length. destruct (Nat.leb_spec (length A) (length A + length C)) as [_|]; [|lia]. eexists. split; [reflexivity|].
  split; [|split]; cbn [b_near b_vis].
  - apply (low_number 14). intros i I0. rewrite near_bits by auto. rewrite (high_bit 14 (b_near n) i) by auto. destruct (Nat.eqb_spec i e); [lia|reflexivity].
  - intros i I0. rewrite near_bits by auto. destruct (Nat.eqb_spec i e) as [->|X]; [rewrite orb_true_r; split; [discriminate|auto]|]. rewrite orb_false_r. apply B. auto.
  - rewrite (table_split (fun i => if Nat.eqb i e then Some v else T i) e L), Nat.eqb_refl.
    rewrite firstn_app, firstn_all, Nat.sub_diag, firstn_O, app_nil_r. rewrite skipn_app, skipn_all, Nat.sub_diag, skipn_O. cbn [app].
    f_equal; [|f_equal]; apply flat_map_same; intros i I0; apply in_seq in I0; destruct (Nat.eqb_spec i e); auto; lia.
Qed.
Lemma table_vertex : forall n T e v, table n T -> e < 14 -> T e = Some v -> vertex n e = Ok v.
Proof.
  intros n T e v TB L TE. pose proof TB as (B1 & B & V). unfold vertex. rewrite mask_count, (table_rank n T e TB) by lia.
  assert (Q : nth_error (b_vis n) (length (flat_map (fun e => match T e with Some v => [v] | None => [] end) (seq 0 e))) = Some v).
  { rewrite V, (table_split T e L), TE. rewrite nth_error_app2 by lia. rewrite Nat.sub_diag. reflexivity. }
  destruct (b_vis n) as [|a l]; [destruct (length _) in Q; discriminate|]. rewrite Q. reflexivity.
Qed.
Lemma table_new : table new_bnode (fun _ => None).
Proof. split; [reflexivity|]. split; [|reflexivity]. intros e _. split; [cbn; discriminate|congruence]. Qed.
Lemma inserted_table : forall l n T, table n T -> NoDup (map fst l) -> (forall e v, In (e, v) l -> e < 14 /\ T e = None) ->
  exists n' T', inserted n l = Ok n' /\ table n' T' /\ (forall e v, In (e, v) l -> T' e = Some v) /\ forall e, ~ In e (map fst l) -> T' e = T e.
Proof.
  induction l as [|[e v] l IH]; intros n T TB ND B; cbn [inserted].
  - exists n, T. split; auto. split; auto. split; [intros e v []|auto].
  - destruct (B e v (or_introl eq_refl)) as [L NE]. destruct (table_insert n T e v TB L NE) as (n1 & -> & TB1). cbn [bind].
    cbn [map fst] in ND. inversion ND as [|? ? NI ND']; subst.
    assert (B1 : forall e' v', In (e', v') l -> e' < 14 /\ (if Nat.eqb e' e then Some v else T e') = None).
    { intros e' v' I0. destruct (B e' v' (or_intror I0)) as [L' N']. split; auto. destruct (Nat.eqb_spec e' e) as [->|]; auto. exfalso. apply NI. apply in_map_iff. exists (e, v'). auto. }
    destruct (IH n1 _ TB1 ND' B1) as (n' & T' & I1 & I2 & I3 & I4). exists n', T'. split; [exact I1|]. split; [exact I2|]. split.
    + intros e' v' [Q|Q]; [|apply I3; auto]. injection Q as <- <-. rewrite I4 by exact NI. rewrite Nat.eqb_refl. reflexivity.
    + intros e' Q. cbn [map fst] in Q. rewrite I4 by (intros X; apply Q; right; exact X). destruct (Nat.eqb_spec e' e); [exfalso; apply Q; left; auto|auto].
Qed.
Lemma node_map : forall l, NoDup (map fst l) -> (forall e v, In (e, v) l -> e < 14) ->
  exists n, inserted new_bnode l = Ok n /\ (forall e v, In (e, v) l -> vertex n e = Ok v) /\
  (forall e, e < 14 -> (has_vertex n e = true <-> In e (map fst l))) /\ length (b_vis n) = bit_count (b_near n).
Proof.
  intros l ND B. destruct (inserted_table l new_bnode (fun _ => None) table_new ND) as (n & T & I1 & I2 & I3 & I4); [intros e v I0; split; [apply (B e v I0)|reflexivity]|].
  exists n. split; [exact I1|]. split; [|split].
  - intros e v I0. apply (table_vertex n T e v I2); [apply (B e v I0)|apply I3; auto].
  - intros e L. rewrite has_vertex_bit by auto. destruct I2 as (_ & I2 & _). rewrite (I2 e L). split.
    + intros Q. destruct (in_dec Nat.eq_dec e (map fst l)) as [|N]; auto. exfalso. apply Q. apply I4. exact N.
    + intros I0. apply in_map_iff in I0. destruct I0 as ([e' v] & <- & I0). cbn [fst]. rewrite (I3 e' v I0). discriminate.
  - pose proof I2 as (L & _ & V). rewrite V, (count_set_bits 14) by exact L. symmetry. apply (table_rank n T 14 I2). lia.
Qed.

(** ** Sorting *)
Lemma combine_split_map : forall (A B : Type) (z : list (A * B)), combine (map fst z) (map snd z) = z.
Proof. intros A B z. induction z as [|[a b] z IH]; cbn; auto. rewrite IH. reflexivity. Qed.
Lemma zip_sort_spec : forall (A B : Type) (less : A * B -> A * B -> bool) sort xs ys, std_sort less sort -> length xs <= length ys -> strict_weak_on less (combine xs ys) ->
  exists xs' ys', zip_sort sort xs ys = Ok (xs', ys') /\ length xs' = length xs /\ length ys' = length ys /\
  Permutation (combine xs' ys') (combine xs ys) /\ StronglySorted (fun a b => less b a = false) (combine xs' ys') /\ skipn (length xs) ys' = skipn (length xs) ys.
Proof.
  intros A B less sort xs ys ST L SW. destruct (ST _ SW) as (z & Q & P & S0). unfold zip_sort. apply Nat.leb_le in L. rewrite L, Q. cbn [bind].
  apply Nat.leb_le in L. pose proof (Permutation_length P) as LZ. rewrite combine_length, Nat.min_l in LZ by auto.
  exists (map fst z), (map snd z ++ skipn (length xs) ys). split; [reflexivity|]. split; [rewrite map_length; auto|].
  split; [rewrite app_length, map_length, skipn_length; lia|].
  assert (C : combine (map fst z) (map snd z ++ skipn (length xs) ys) = z).
  { rewrite <- (combine_split_map _ _ z) at 3. rewrite <- (app_nil_r (map fst z)) at 1. 
    assert (G : forall (a : list A) (b b' : list B), length a = length b -> combine (a ++ []) (b ++ b') = combine a b).
    { induction a as [|x a IH]; intros [|y b] b' E; cbn in *; try discriminate; auto. f_equal. apply IH. lia. }
    apply G. rewrite !map_length. reflexivity. }
  rewrite C. split; [exact P|]. split; [exact S0|]. rewrite skipn_app, map_length, LZ, Nat.sub_diag, skipn_O.
  rewrite skipn_all2 by (rewrite map_length; lia). reflexivity.
Qed.
Lemma less_num_some : forall x y, less_num (Some x) (Some y) = true <-> (x < y)%R.
Proof. intros x y. cbn. destruct (Rlt_dec x y); split; auto; discriminate. Qed.
Lemma less_num_false : forall x y, less_num (Some x) (Some y) = false <-> (y <= x)%R.
Proof. intros x y. cbn. destruct (Rlt_dec x y); split; auto; intros; try lra; discriminate. Qed.
Lemma numbers_sortable : forall l, (forall a, In a l -> snd a <> None) -> strict_weak_on by_second l /\ strict_weak_on by_second_descending l.
Proof.
  intros l N. assert (G : forall a : nat * option R, In a l -> exists x, snd a = Some x) by (intros a I0; specialize (N a I0); destruct (snd a); [eauto|congruence]).
  split; constructor; unfold by_second, by_second_descending.
  - intros a I0. destruct (G a I0) as (x & ->). apply less_num_false. lra.
  - intros a b c I0 I1 I2. destruct (G a I0) as (x & ->), (G b I1) as (y & ->), (G c I2) as (z & ->). rewrite !less_num_some. lra.
  - intros a b c I0 I1 I2. destruct (G a I0) as (x & ->), (G b I1) as (y & ->), (G c I2) as (z & ->). rewrite !less_num_false. lra.
  - intros a I0. destruct (G a I0) as (x & ->). apply less_num_false. lra.
  - intros a b c I0 I1 I2. destruct (G a I0) as (x & ->), (G b I1) as (y & ->), (G c I2) as (z & ->). rewrite !less_num_some. lra.
  - intros a b c I0 I1 I2. destruct (G a I0) as (x & ->), (G b I1) as (y & ->), (G c I2) as (z & ->). rewrite !less_num_false. lra.
Qed.
Lemma nan_unsortable : forall l i j k x y, In (i, Some x) l -> In (j, None) l -> In (k, Some y) l -> (x < y)%R -> ~ strict_weak_on by_second l /\ ~ strict_weak_on by_second_descending l.
Proof.
  intros l i j k x y A B C L. split; intros [_ _ E].
  - destruct (E _ _ _ A B C eq_refl eq_refl eq_refl eq_refl) as [Q _]. unfold by_second in Q. cbn [snd] in Q. rewrite (proj2 (less_num_some x y) L) in Q. discriminate.
  - destruct (E _ _ _ A B C eq_refl eq_refl eq_refl eq_refl) as [_ Q]. unfold by_second_descending in Q. cbn [snd] in Q. rewrite (proj2 (less_num_some x y) L) in Q. discriminate.
Qed.
Lemma rows_sortable : forall (B : Type) (l : list (nat * B)), strict_weak_on by_first l.
Proof.
  intros B l. constructor; unfold by_first; intros; repeat match goal with H : (_ <? _) = true |- _ => apply Nat.ltb_lt in H | H : (_ <? _) = false |- _ => apply Nat.ltb_ge in H end;
    try split; try apply Nat.ltb_ge; try apply Nat.ltb_lt; lia.
Qed.
Lemma insert_row_perm : forall p l, Permutation (insert_row p l) (p :: l).
Proof. induction l as [|q l IH]; cbn; auto. destruct (fst p <=? fst q); auto. rewrite IH. apply perm_swap. Qed.
Lemma sort_rows_perm : forall l, Permutation (sort_rows l) l.
Proof. induction l as [|p l IH]; cbn; auto. rewrite insert_row_perm. auto. Qed.
Lemma sort_rows_sorted : forall l, StronglySorted (fun a b => by_first b a = false) (sort_rows l).
Proof.
  induction l as [|p l IH]; [constructor|]. cbn [sort_rows fold_right]. fold (sort_rows l). induction IH as [|q m S0 IH F]; cbn [insert_row]; [repeat constructor|].
  destruct (Nat.leb_spec (fst p) (fst q)) as [L|L].
  - constructor; [constructor; auto|]. constructor; [unfold by_first; apply Nat.ltb_ge; auto|]. eapply Forall_impl; [|exact F].
    intros a A. unfold by_first in *. apply Nat.ltb_ge in A. apply Nat.ltb_ge. lia.
  - constructor; auto. apply Forall_forall. intros a A. apply (Permutation_in _ (insert_row_perm p m)) in A. destruct A as [<-|A].
    + unfold by_first. apply Nat.ltb_ge. lia.
    + rewrite Forall_forall in F. auto.
Qed.
Lemma sorted_same : forall (B : Type) (l m : list (nat * B)), NoDup (map fst l) -> Permutation l m -> StronglySorted (fun a b => by_first b a = false) l ->
  StronglySorted (fun a b => by_first b a = false) m -> l = m.
Proof.
  intros B. induction l as [|a l IH]; intros m ND P S0 S1; [apply Permutation_nil in P; auto|].
  destruct m as [|b m]; [apply Permutation_sym, Permutation_nil in P; discriminate|].
  inversion S0 as [|? ? S0' F0]; subst. inversion S1 as [|? ? S1' F1]; subst. rewrite Forall_forall in F0, F1.
  assert (AB : a = b).
  { assert (A : In a (b :: m)) by (apply (Permutation_in _ P); left; auto). assert (B0 : In b (a :: l)) by (apply (Permutation_in _ (Permutation_sym P)); left; auto).
    destruct A as [A|A]; auto. destruct B0 as [B0|B0]; auto. specialize (F0 b B0). specialize (F1 a A). unfold by_first in F0, F1. apply Nat.ltb_ge in F0, F1.
    cbn [map] in ND. inversion ND as [|? ? NI _]; subst. exfalso. apply NI. apply in_map_iff. exists b. split; auto. lia. }
  subst b. f_equal. apply IH; auto; [inversion ND; auto|]. apply Permutation_cons_inv in P. exact P.
Qed.
Lemma zip_sort_rows : forall sort xs ys, std_sort by_first sort -> length xs = length ys -> NoDup xs ->
  exists xs' ys', zip_sort sort xs ys = Ok (xs', ys') /\ combine xs' ys' = sort_rows (combine xs ys).
Proof.
  intros sort xs ys ST L ND. destruct (zip_sort_spec nat bool by_first sort xs ys ST) as (xs' & ys' & Q & L1 & L2 & P & S0 & _); [lia|apply rows_sortable|].
  exists xs', ys'. split; [exact Q|]. apply sorted_same; auto.
  - apply (Permutation_NoDup (l := map fst (combine xs ys))); [apply Permutation_map, Permutation_sym; exact P|].
    assert (map fst (combine xs ys) = xs) as ->; auto. clear - L. revert ys L. induction xs as [|x xs IH]; intros [|y ys] L; cbn in *; auto; try discriminate. f_equal. apply IH. lia.
  - rewrite P. symmetry. apply sort_rows_perm.
  - apply sort_rows_sorted.
Qed.
