From Coq Require Import List Arith Bool Ascii Lia.
From Verif Require Import Model.Outcome Model.Table Spec.Table.
Import ListNotations.

Lemma memb_In : forall c s, memb c s = true <-> In c s.
Proof.
  intros. unfold memb. rewrite existsb_exists. split.
  - intros (x & I & E). apply Ascii.eqb_eq in E. subst. auto.
  - intros I. exists c. split; auto. apply Ascii.eqb_refl.
Qed.

Lemma split_on_app : forall sep a b s,
  (forall c, In c a -> sep c = false) -> sep b = true ->
  split_on sep (a ++ b :: s) = a :: split_on sep s.
Proof.
  induction a as [|x a IH]; intros b s F B; cbn.
  - rewrite B. reflexivity.
  - rewrite (F x) by (left; auto). rewrite IH; auto. intros. apply F. right; auto.
Qed.

Lemma split_on_none : forall sep a,
  (forall c, In c a -> sep c = false) -> split_on sep a = [a].
Proof.
  induction a as [|x a IH]; intros F; cbn; auto.
  rewrite (F x) by (left; auto). rewrite IH; auto. intros. apply F. right; auto.
Qed.

Lemma split_on_nonempty : forall sep s, split_on sep s <> [].
Proof.
  induction s; cbn; [discriminate|]. destruct (sep a); [discriminate|].
  destruct (split_on sep s); discriminate.
Qed.

Lemma drop_last_empty_app : forall ls, drop_last_empty (ls ++ [[]]) = ls.
Proof.
  induction ls as [|l ls IH]; auto. cbn [app drop_last_empty].
  rewrite IH. destruct l; auto. destruct ls; auto.
Qed.

Lemma getlines_unlines : forall ls, Forall whole_line ls -> getlines (unlines ls) = ls.
Proof.
  intros ls F. unfold getlines.
  assert (split_on (Ascii.eqb newline) (unlines ls) = ls ++ [[]]) as ->; [|apply drop_last_empty_app].
  induction ls as [|l ls IH]; [reflexivity|]. inversion F; subst.
  unfold unlines. cbn [flat_map]. rewrite <- app_assoc. cbn [app].
  rewrite split_on_app.
  - cbn [app]. f_equal. apply IH. auto.
  - intros c I. destruct (Ascii.eqb_spec newline c); auto. subst. exfalso. apply H1; auto.
  - apply Ascii.eqb_refl.
Qed.

Section Proofs.

Context {D : Type}.
Variable to_double : list ascii -> D.
Notation rowof ds l := (map (fun c => to_double (trim c)) (split_on (fun c => memb c ds) l)).

Lemma reshape_concat : forall n (rows : list (list D)) k,
  Forall (fun r => length r = n) rows -> length rows = k ->
  reshape k n (concat rows) = rows.
Proof.
  induction rows as [|r rows IH]; intros k F L; cbn in L; subst k; auto.
  inversion F; subst. cbn [reshape concat].
  rewrite firstn_app, firstn_all, Nat.sub_diag, firstn_O, app_nil_r.
  rewrite skipn_app, skipn_all, Nat.sub_diag. cbn [skipn app]. rewrite IH; auto.
Qed.

Lemma read_lines_later : forall ds ls n buf, n <> 0 ->
  read_lines to_double ds ls n buf =
  (n, buf ++ concat (map (fun l => rowof ds l)
        (filter (fun l => Nat.eqb (length (cells ds l)) n)
           (filter (fun l => negb (is_comment l)) ls)))).
Proof.
  induction ls as [|l ls IH]; intros n buf N; cbn [read_lines filter].
  - cbn. rewrite app_nil_r. auto.
  - destruct (is_comment l) eqn:C; cbn [negb].
    + apply IH; auto.
    + destruct (Nat.eqb_spec n 0); [congruence|]. cbn [filter]. unfold cells at 1.
      destruct (Nat.eqb (length (split_on (fun c => memb c ds) l)) n) eqn:Q; cbn [negb].
      * rewrite IH by auto. cbn [map concat]. rewrite <- app_assoc. reflexivity.
      * apply IH; auto.
Qed.

Lemma cells_nonzero : forall ds l, length (cells ds l) <> 0.
Proof.
  intros ds l H. apply length_zero_iff_nil in H. revert H. apply split_on_nonempty.
Qed.

Lemma read_lines_first : forall ds ls,
  match filter (fun l => negb (is_comment l)) ls with
  | [] => read_lines to_double ds ls 0 [] = (0, [])
  | l0 :: rest => read_lines to_double ds ls 0 [] =
      (length (cells ds l0), concat (map (fun l => rowof ds l)
        (filter (fun l => Nat.eqb (length (cells ds l)) (length (cells ds l0))) (l0 :: rest))))
  end.
Proof.
  induction ls as [|l ls IH]; cbn [read_lines filter]; auto.
  destruct (is_comment l) eqn:C; cbn [negb].
  - destruct (filter _ ls); auto.
  - cbn [Nat.eqb app]. rewrite read_lines_later by apply cells_nonzero.
    cbn [filter]. rewrite Nat.eqb_refl. reflexivity.
Qed.

(** The complete meaning of a file of whole lines. *)
Lemma read_table_spec : forall ds ls, Forall whole_line ls ->
  read_table to_double ds (Some (unlines ls)) =
  match table_of to_double ds ls with Some t => Ok t | None => Throw ExRuntimeError end.
Proof.
  intros ds ls F. unfold read_table. rewrite getlines_unlines by auto.
  pose proof (read_lines_first ds ls) as R. unfold table_of.
  destruct (filter (fun l => negb (is_comment l)) ls) as [|l0 rest]; rewrite R; [reflexivity|].
  set (n := length (cells ds l0)).
  set (ok := filter (fun l => Nat.eqb (length (cells ds l)) n) (l0 :: rest)).
  pose proof (cells_nonzero ds l0) as NZ. fold n in NZ.
  destruct (Nat.eqb_spec n 0); [congruence|]. f_equal.
  assert (Forall (fun r => length r = n) (map (fun l => rowof ds l) ok)) as W.
  { apply Forall_forall. intros r I. apply in_map_iff in I. destruct I as (l & <- & I).
    unfold ok in I. apply filter_In in I. destruct I as [_ I]. apply Nat.eqb_eq in I.
    rewrite map_length. exact I. }
  apply reshape_concat; auto.
  assert (length (concat (map (fun l => rowof ds l) ok)) = length (map (fun l => rowof ds l) ok) * n)
    as ->.
  { clear - W. induction (map (fun l => rowof ds l) ok); auto. inversion W; subst.
    cbn [concat length]. rewrite app_length, IHl by auto. lia. }
  rewrite Nat.div_mul; auto.
Qed.

Lemma comments_irrelevant : forall ds ls, Forall whole_line ls ->
  read_table to_double ds (Some (unlines (filter (fun l => negb (is_comment l)) ls))) =
  read_table to_double ds (Some (unlines ls)).
Proof.
  intros ds ls F. rewrite !read_table_spec; auto.
  - unfold table_of.
    assert (forall l : list (list ascii), filter (fun l => negb (is_comment l))
              (filter (fun l => negb (is_comment l)) l) = filter (fun l => negb (is_comment l)) l) as ->.
    { induction l as [|a l IH]; auto. cbn. destruct (negb (is_comment a)) eqn:E; auto. cbn.
      rewrite E, IH. auto. }
    reflexivity.
  - clear - F. induction ls; cbn; auto. inversion F; subst. destruct (negb (is_comment a)); auto.
Qed.

Lemma empty_first_line : forall ds ls, Forall whole_line ls ->
  (forall l, In l ls -> length (cells ds l) <> 1) ->
  read_table to_double ds (Some (unlines ([] :: ls))) = Ok [[to_double []]].
Proof.
  intros ds ls F H. rewrite read_table_spec by (constructor; [intros []|auto]).
  unfold table_of. cbn [filter is_comment negb cells split_on length Nat.eqb map trim trim_left rev app].
  do 2 f_equal.
  match goal with |- context [filter ?f (filter ?g ls)] => assert (filter f (filter g ls) = []) as -> end;
    [|reflexivity].
  induction ls as [|l ls IH]; auto. inversion F; subst. cbn [filter].
  destruct (negb (is_comment l)); [|apply IH; auto; intros; apply H; right; auto].
  cbn [filter]. destruct (Nat.eqb_spec (length (cells ds l)) 1); [exfalso; apply (H l); auto; left; auto|].
  apply IH; auto. intros. apply H. right; auto.
Qed.

(** ** Round trip *)

Variable to_string : D -> list ascii.

Lemma trim_left_nospace : forall s, (forall c, In c s -> is_space c = false) -> trim_left s = s.
Proof. intros [|c s] H; cbn [trim_left]; auto. rewrite H; auto. left; auto. Qed.

Lemma trim_nospace : forall s, (forall c, In c s -> is_space c = false) -> trim s = s.
Proof.
  intros s H. unfold trim. rewrite (trim_left_nospace s) by auto.
  rewrite trim_left_nospace, rev_involutive; auto. intros c I. apply H. apply in_rev. auto.
Qed.

Lemma good_cell_newline : forall ds x, good_cell to_double to_string ds x -> ~ In newline (to_string x).
Proof.
  intros ds x (_ & _ & G) I. apply G in I. destruct I as (_ & S & _). discriminate.
Qed.

Lemma write_row_line : forall ds d row,
  d <> newline -> Forall (good_cell to_double to_string ds) row -> whole_line (write_row to_string d row).
Proof.
  intros ds d row N F. unfold whole_line.
  induction row as [|x row IH]; [cbn; auto|]. inversion F; subst.
  destruct row as [|y row].
  - cbn. eapply good_cell_newline; eauto.
  - cbn [write_row]. rewrite in_app_iff. intros [I|[I|I]].
    + revert I. eapply good_cell_newline; eauto.
    + auto.
    + revert I. apply IH. auto.
Qed.

Lemma write_row_cells : forall ds d row,
  In d ds -> row <> [] -> Forall (good_cell to_double to_string ds) row ->
  cells ds (write_row to_string d row) = map to_string row.
Proof.
  intros ds d row N E F. unfold cells.
  induction row as [|x row IH]; [congruence|]. inversion F; subst.
  assert (forall c, In c (to_string x) -> memb c ds = false) as H.
  { intros c I. destruct H1 as (_ & _ & G). apply G in I. destruct I as (I & _).
    destruct (memb c ds) eqn:Q; auto. apply memb_In in Q. contradiction. }
  destruct row as [|y row].
  - cbn [write_row map]. apply split_on_none. auto.
  - change (write_row to_string d (x :: y :: row))
      with (to_string x ++ d :: write_row to_string d (y :: row)).
    rewrite split_on_app; auto; [|apply memb_In; auto]. cbn [map]. f_equal.
    apply IH; auto. discriminate.
Qed.

Lemma write_row_not_comment : forall ds d row,
  row <> [] -> Forall (good_cell to_double to_string ds) row ->
  is_comment (write_row to_string d row) = false.
Proof.
  intros ds d [|x row] E F; [congruence|]. inversion F; subst.
  destruct H1 as (_ & N & G). destruct (to_string x) as [|c s] eqn:T; [congruence|].
  assert (exists s', write_row to_string d (x :: row) = c :: s') as (s' & ->).
  { destruct row; cbn [write_row]; rewrite T; eexists; reflexivity. }
  cbn. destruct (Ascii.eqb_spec c hash); auto. exfalso. subst. apply (G hash); auto. left; auto.
Qed.

Lemma round_trip : forall ds d n (table : list (list D)),
  In d ds -> d <> newline -> table <> [] -> n <> 0 ->
  Forall (fun row => length row = n /\ Forall (good_cell to_double to_string ds) row) table ->
  read_table to_double ds (Some (write_table to_string d table)) = Ok table.
Proof.
  intros ds d n table I N E NZ F.
  assert (forall row, In row table -> row <> []) as NE.
  { intros row R ->. rewrite Forall_forall in F. apply F in R. cbn in R. lia. }
  replace (write_table to_string d table) with (unlines (map (write_row to_string d) table))
    by (unfold unlines, write_table; rewrite flat_map_concat_map, map_map, <- flat_map_concat_map; auto).
  rewrite read_table_spec.
  2:{ apply Forall_forall. intros l L. apply in_map_iff in L. destruct L as (row & <- & R).
      rewrite Forall_forall in F. eapply write_row_line; auto. apply F; auto. }
  unfold table_of.
  assert (filter (fun l => negb (is_comment l)) (map (write_row to_string d) table)
          = map (write_row to_string d) table) as ->.
  { clear E. induction table as [|row t IH]; auto. inversion F; subst. cbn [map filter].
    rewrite write_row_not_comment with (ds := ds); [|apply NE; left; auto|apply H1].
    cbn [negb]. f_equal. apply IH; auto. intros. apply NE. right; auto. }
  destruct table as [|r0 t]; [congruence|].
  cbn [map]. f_equal.
  assert (forall row, In row (r0 :: t) ->
            cells ds (write_row to_string d row) = map to_string row) as C.
  { intros row R. apply write_row_cells; auto. rewrite Forall_forall in F. apply F; auto. }
  assert (filter (fun l => Nat.eqb (length (cells ds l)) (length (cells ds (write_row to_string d r0))))
            (map (write_row to_string d) (r0 :: t)) = map (write_row to_string d) (r0 :: t)) as FE.
  { rewrite (C r0) by (left; auto). rewrite map_length.
    assert (forall rows, (forall row, In row rows -> In row (r0 :: t)) ->
      filter (fun l => Nat.eqb (length (cells ds l)) (length r0)) (map (write_row to_string d) rows)
      = map (write_row to_string d) rows) as G.
    { induction rows as [|row rows IH]; intros S; auto. cbn [map filter].
      rewrite C by (apply S; left; auto). rewrite map_length.
      assert (length row = length r0) as ->.
      { rewrite Forall_forall in F. transitivity n; [|symmetry]; apply F; [apply S|]; left; auto. }
      rewrite Nat.eqb_refl. f_equal. apply IH. intros. apply S. right; auto. }
    apply G; auto. }
  cbn [map] in FE. rewrite FE.
  change (write_row to_string d r0 :: map (write_row to_string d) t)
    with (map (write_row to_string d) (r0 :: t)).
  rewrite map_map. rewrite <- (map_id (r0 :: t)) at 2. apply map_ext_in.
  intros row R. rewrite C by auto. rewrite map_map. rewrite <- (map_id row) at 2. apply map_ext_in.
  intros x X. rewrite Forall_forall in F. apply F in R. destruct R as [_ R].
  rewrite Forall_forall in R. destruct (R x X) as (P & _ & G).
  rewrite trim_nospace; auto. intros c H. apply G in H. apply H.
Qed.

End Proofs.
