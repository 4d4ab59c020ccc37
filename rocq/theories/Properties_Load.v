(** C57: loading a table of numbers from a text file ([data::loadtxt]). *)
From Coq Require Import Ascii String Reals Lra.
From Verif Require Import Base Load_Model Load_Spec Load_Proofs.
Local Open Scope list_scope.
Local Open Scope nat_scope.

(** Both number types are read as they are written: integers of any range, and real numbers in decimal or scientific
    notation (exactly; rounding is not modelled). *)
Theorem C57_numbers : (forall lo hi, reads (integer lo hi) (get_int lo hi)) /\ reads real_number get_real.
Proof. split; [exact int_reads|exact real_reads]. Qed.
Print Assumptions C57_numbers.

(** A text with at least one line of m + 1 numbers each, separated by white space: the first m numbers of each line
    become the row of [X] and the last one the entry of [y], in the order of the lines, in both overloads with labels;
    the overload without labels gives all numbers. *)
Theorem C57_table : forall T (zero : T) denotes get (s : text) rows m, reads denotes get -> text_of (line_of denotes) s rows -> rows <> [] -> (forall r, In r rows -> length r = S m) ->
  let X := map (firstn m) rows in let y := map (fun r => last r zero) rows in
  loadtxt_eigen zero get (Some s) = Ok (X, y) /\ loadtxt_split zero get (Some s) [] [] = Ok (X, y) /\ loadtxt_rows get (Some s) [] = Ok rows.
Proof.
  intros T zero denotes get s rows m G H Ne W X y. pose proof (read_text G H) as E. destruct rows as [|r rows]; [congruence|]. assert (Lr := W r (or_introl eq_refl)). split; [|split].
  - rewrite (eigen_rows zero get s E). rewrite Lr. cbn [Nat.sub]. rewrite Nat.sub_0_r. replace (forallb _ (r :: rows)) with true.
    + f_equal. f_equal. apply map_ext_in. intros q Hq. apply nth_last. now apply W.
    + symmetry. apply forallb_forall. intros q Hq. rewrite (W q Hq). rewrite Nat.leb_refl. reflexivity.
  - rewrite (split_rows zero get s [] [] E); try lia; [|intros q Hq; rewrite (W q Hq); lia|cbn; lia|intros q []]. rewrite Lr. cbn [Nat.sub]. now rewrite Nat.sub_0_r.
  - unfold loadtxt_rows. rewrite E. reflexivity.
Qed.
Print Assumptions C57_table.

(** A file that cannot be opened raises [runtime_error] and leaves the arguments alone; no text makes the loader
    loop: reading always ends, and the overload without labels always returns. *)
Theorem C57_ends : forall T (zero : T) denotes get, reads denotes get ->
  loadtxt_eigen zero get None = Throw RuntimeError /\ (forall X y, loadtxt_split zero get None X y = Throw RuntimeError) /\ (forall X, loadtxt_rows get None X = Throw RuntimeError) /\
  (forall s X, exists rows, loadtxt_rows get (Some s) X = Ok (X ++ rows)) /\ (forall s, loadtxt_eigen zero get (Some s) = UB \/ exists r, loadtxt_eigen zero get (Some s) = Ok r).
Proof.
  intros T zero denotes get G. split; [reflexivity|]. split; [reflexivity|]. split; [reflexivity|]. split.
  - intros s X. destruct (read_rows_total G s) as (rows & E). exists rows. unfold loadtxt_rows. now rewrite E.
  - intros s. destruct (read_rows_total G s) as (rows & E). destruct rows as [|r rows]; [left; exact (eigen_no_rows zero get s E)|]. rewrite (eigen_rows zero get s E). destruct (forallb _ _); eauto.
Qed.
Print Assumptions C57_ends.
Example C57_ends_case := C57_ends Z 0%Z _ _ (proj1 C57_numbers (-100)%Z 100%Z).

(** Refuted: "a malformed table is reported".  An empty file, an empty line, or a line with fewer numbers than the first
    one is undefined behaviour, although no exception is raised (a blank line at the end is enough). *)
Theorem C57_ragged_refuted : forall T (zero : T) denotes get (s : text) rows, reads denotes get -> text_of (line_of denotes) s rows ->
  (forall r, In r rows -> r <> [] /\ length (hd [] rows) <= length r) /\ rows <> [] \/ loadtxt_eigen zero get (Some s) = UB.
Proof.
  intros T zero denotes get s rows G H. pose proof (read_text G H) as E. destruct rows as [|r rows]; [right; exact (eigen_no_rows zero get s E)|]. rewrite (eigen_rows zero get s E). cbn [hd]. destruct (forallb _ _) eqn:F; [left|now right].
  split; [|discriminate]. intros q Hq. rewrite forallb_forall in F. specialize (F q Hq). apply andb_true_iff in F. destruct F as (F1 & F2). apply Nat.leb_le in F1, F2. split; [|assumption]. intros ->. cbn in F1. lia.
Qed.
Print Assumptions C57_ragged_refuted.

(** Refuted: "the last number of every line is its label".  With Eigen matrices the numbers after those of the first
    line are dropped, so the label of a longer line is another of its numbers; the other overload takes the last one. *)
Theorem C57_long_lines_refuted : forall T (zero : T) denotes get (s : text) rows m, reads denotes get -> text_of (line_of denotes) s rows -> length (hd [] rows) = S m -> (forall r, In r rows -> m < length r) ->
  loadtxt_eigen zero get (Some s) = Ok (map (firstn m) rows, map (fun r => nth m r zero) rows) /\
  loadtxt_split zero get (Some s) [] [] = Ok (map (firstn m) rows, map (fun r => last r zero) rows).
Proof.
  intros T zero denotes get s rows m G H Lr W. pose proof (read_text G H) as E. destruct rows as [|r rows]; [discriminate|]. cbn [hd] in Lr. split.
  - rewrite (eigen_rows zero get s E). rewrite Lr. cbn [Nat.sub]. rewrite Nat.sub_0_r. replace (forallb _ (r :: rows)) with true; [reflexivity|].
    symmetry. apply forallb_forall. intros q Hq. specialize (W q Hq). apply andb_true_iff. split; apply Nat.leb_le; lia.
  - rewrite (split_rows zero get s [] [] E); try lia; [|intros q Hq; specialize (W q Hq); lia|cbn; lia|intros q []]. rewrite Lr. cbn [Nat.sub]. now rewrite Nat.sub_0_r.
Qed.
Print Assumptions C57_long_lines_refuted.

(** Refuted: "comma-separated values are read or rejected".  Of every line only the first number is kept, and it becomes
    the label: [X] has no columns. *)
Theorem C57_commas_refuted : forall T (zero : T) denotes get (s : text) rows, reads denotes get -> text_of (comma_line_of denotes) s rows -> rows <> [] ->
  loadtxt_eigen zero get (Some s) = Ok (map (fun _ => []) rows, map (hd zero) rows) /\ loadtxt_split zero get (Some s) [] [] = Ok (map (fun _ => []) rows, map (hd zero) rows).
Proof.
  intros T zero denotes get s rows G H Ne. destruct (read_comma G H) as (rs & E & F).
  assert (R : rs = map (fun r => [hd zero r]) rows). { clear - F. induction F as [|r q rows rs (v & vs & -> & ->) _ IH]; [reflexivity|]. cbn. now rewrite IH. }
  destruct rows as [|r rows]; [congruence|]. cbn [map] in R. rewrite R in E. split.
  - rewrite (eigen_rows zero get s E). cbn [length Nat.sub]. replace (forallb _ _) with true.
    + cbn [map firstn nth]. rewrite !map_map. reflexivity.
    + symmetry. apply forallb_forall. intros q [<-|Hq]; [reflexivity|]. apply in_map_iff in Hq. destruct Hq as (x & <- & _). reflexivity.
  - assert (L1 : forall q, In q ([hd zero r] :: map (fun r => [hd zero r]) rows) -> 1 <= length q) by (intros q [<-|Hq]; [cbn; lia|]; apply in_map_iff in Hq; destruct Hq as (x & <- & _); cbn; lia).
    rewrite (split_rows zero get s [] [] E); cbn [length]; try lia; auto; try (now intros q []). cbn [map firstn Nat.sub app]. rewrite !map_map. reflexivity.
Qed.
Print Assumptions C57_commas_refuted.

(** Refuted: "a header line is skipped or reported": a first line that begins with a letter is read as an empty row,
    which is undefined behaviour with Eigen matrices and a [length_error] (a request for 2^64 - 1 elements) otherwise. *)
Theorem C57_header_refuted : forall T (zero : T) denotes get (w : text) c (l s : text) X y, reads denotes get -> blanks w -> 65 <= nat_of_ascii c <= 122 -> ~ In newline l ->
  loadtxt_eigen zero get (Some (w ++ (c :: l) ++ newline :: s)) = UB /\ loadtxt_split zero get (Some (w ++ (c :: l) ++ newline :: s)) X y = Throw LengthError.
Proof.
  intros T zero denotes get w c l s X y G Hw Hc Hl.
  assert (exists rows, read_rows get (w ++ (c :: l) ++ newline :: s) = Ok ([] :: rows)) as (rows & E).
  { destruct (read_rows_total G s) as (rows & E). exists rows. unfold read_rows in *. rewrite app_assoc, get_lines_line.
    - cbn [mapM]. replace (get_row get (S (length (w ++ c :: l))) (w ++ c :: l)) with (@Ok (list T) []); [cbn [bind]; now rewrite E|]. cbn [get_row]. now rewrite (reads_letter G w c l Hw Hc).
    - intro Hin. apply in_app_or in Hin. destruct Hin as [Hin|[Hin|Hin]]; [exact (blanks_newline Hw Hin)| |contradiction]. rewrite Hin in Hc. cbn in Hc. lia. }
  split; [pose proof (eigen_rows zero get _ E) as H; exact H|]. unfold loadtxt_split. unfold text in *. rewrite E. reflexivity.
Qed.
Print Assumptions C57_header_refuted.

(** Refuted: "loading replaces what was there".  A second load into the same variables gives the same [X] but a [y] of
    twice the length; the overload without labels appends the rows. *)
Theorem C57_reload_refuted : forall T (zero : T) denotes get (s : text) rows m, reads denotes get -> text_of (line_of denotes) s rows -> rows <> [] -> (forall r, In r rows -> length r = S m) ->
  let X := map (firstn m) rows in let y := map (fun r => last r zero) rows in
  loadtxt_split zero get (Some s) X y = Ok (X, y ++ y) /\ (forall X0, loadtxt_rows get (Some s) X0 = Ok (X0 ++ rows)).
Proof.
  intros T zero denotes get s rows m G H Ne W X y. pose proof (read_text G H) as E. destruct rows as [|r rows]; [congruence|]. assert (Lr := W r (or_introl eq_refl)). split.
  - rewrite (split_rows zero get s X y E); try lia.
    + rewrite Lr. cbn [Nat.sub]. now rewrite Nat.sub_0_r.
    + intros q Hq. rewrite (W q Hq). lia.
    + unfold X. rewrite map_length. lia.
    + intros q Hq. unfold X in Hq. apply in_map_iff in Hq. destruct Hq as (x & <- & Hx). rewrite firstn_length, (W x Hx). lia.
  - intros X0. unfold loadtxt_rows. now rewrite E.
Qed.
Print Assumptions C57_reload_refuted.

(** * Cases *)
Definition chars := list_ascii_of_string.
Lemma one_digit c d : is_digit c d -> number [c] d.
Proof. intro H. exact (number_snoc number_nil H). Qed.
Ltac dig := split; [reflexivity|lia].

(** Two lines of integers, the second one not ended. *)
Example C57_case : text_of (line_of (integer (-100) 100)) (chars "4 -7" ++ newline :: chars " 12 5 ") [[4; -7]; [12; 5]]%Z.
Proof.
  assert (I4 : integer (-100) 100 ["4"]%char 4) by (exists [], ["4"%char], 1%Z, 4%Z; repeat split; try constructor; try discriminate; try lia; apply one_digit; dig).
  assert (I7 : integer (-100) 100 ["-"; "7"]%char (-7)) by (exists ["-"%char], ["7"%char], (-1)%Z, 7%Z; repeat split; try constructor; try discriminate; try lia; apply one_digit; dig).
  assert (I5 : integer (-100) 100 ["5"]%char 5) by (exists [], ["5"%char], 1%Z, 5%Z; repeat split; try constructor; try discriminate; try lia; apply one_digit; dig).
  assert (I12 : integer (-100) 100 ["1"; "2"]%char 12).
  { exists [], ["1"; "2"]%char, 1%Z, 12%Z. repeat split; try constructor; try discriminate; try lia. exact (number_snoc (ds := ["1"%char]) (c := "2"%char) (d := 2%Z) (one_digit "1"%char 1%Z ltac:(dig)) ltac:(dig)). }
  assert (B0 : blanks []) by (intros ? []). assert (B1 : blanks [" "%char]) by (intros c [<-|[]]; now left).
  constructor.
  - refine (@line_number _ _ ([]) (["4"%char]) _ (chars " -7") _ B0 I4 _ _); [right; exists " "%char, (chars "-7"); split; [reflexivity|now left]|].
    refine (@line_number _ _ ([" "%char]) (["-"; "7"]%char) _ ([]) _ B1 I7 (or_introl eq_refl) (line_end _ B0)).
  - constructor; [discriminate|]. refine (@line_number _ _ ([" "%char]) (["1"; "2"]%char) _ (chars " 5 ") _ B1 I12 _ _); [right; exists " "%char, (chars "5 "); split; [reflexivity|now left]|].
    refine (@line_number _ _ ([" "%char]) (["5"%char]) _ (chars " ") _ B1 I5 _ (line_end _ B1)). right. exists " "%char, []. split; [reflexivity|now left].
Qed.
Example C57_case_load : loadtxt_eigen 0%Z (get_int (-100) 100) (Some (chars "4 -7" ++ newline :: chars " 12 5 ")) = Ok ([[4]; [12]], [-7; 5])%Z.
Proof. exact (proj1 (C57_table _ 0%Z _ _ _ [[4; -7]; [12; 5]]%Z 1 (int_reads _ _) C57_case ltac:(discriminate) ltac:(intros r [<-|[<-|[]]]; reflexivity))). Qed.
Example C57_case_real : get_real (chars " -12.5e1") = Some (-125, [])%R.
Proof. cbv -[IZR Rmult powerRZ]. f_equal. f_equal. cbn. lra. Qed.
Example C57_case_comma : loadtxt_eigen 0%Z (get_int (-100) 100) (Some (chars "1,2")) = Ok ([[]], [1]%Z).
Proof. reflexivity. Qed.
