(** C13-C20: the vector and matrix utilities of core/common.hpp. *)
From Coq Require Import Factorial.
From Verif Require Import Base Sorting Common_Model Common_Spec RDR_Proofs RowSort_Proofs
  CommonMisc_Proofs CombPos_Proofs.

Definition M33 : mat := Mat 3 [[3;1;2];[3;3;0];[5;5;5]]%Z.
Example M33_ok : mat_ok M33 /\ 3 <= mcols M33 /\ 3 <= length (mrows M33).
Proof. split; [repeat constructor|split; simpl; lia]. Qed.

(** C13.  argmax and argmin return the first position of the extremum, per row, per
    column and overall (in row-major order); any other axis raises. *)
Theorem C13_argmax :
  forall m, mat_ok m -> 0 < mcols m -> mrows m <> [] ->
  (exists is_, argmax m 1 = Ok is_ /\ Forall2 first_max (mrows m) is_) /\
  (exists is_, argmax m 0 = Ok is_ /\
     Forall2 (fun j i => first_max (column j (mrows m)) i) (seq 0 (mcols m)) is_) /\
  (exists i, argmax m (-1) = Ok [i] /\ first_max (concat (mrows m)) i) /\
  (forall axis, axis <> 0 -> axis <> 1 -> axis <> -1 -> argmax m axis = Throw InvalidArgument)%Z.
Proof.
  exact (fun m Hok Hc Hr =>
    conj (@argext_rows _ _ arg_coeff_max m Hok Hc) (conj (@argext_cols _ _ arg_coeff_max m Hr)
    (conj (@argext_all _ _ arg_coeff_max m Hok Hc Hr)
          (fun axis H0 H1 H2 => argext_bad _ m H0 H1 H2)))).
Qed.
Print Assumptions C13_argmax.
Example C13_argmax_case := C13_argmax M33 (proj1 M33_ok) (proj1 (Nat.ltb_lt 0 3) eq_refl) ltac:(discriminate).

Theorem C13_argmin :
  forall m, mat_ok m -> 0 < mcols m -> mrows m <> [] ->
  (exists is_, argmin m 1 = Ok is_ /\ Forall2 first_min (mrows m) is_) /\
  (exists is_, argmin m 0 = Ok is_ /\
     Forall2 (fun j i => first_min (column j (mrows m)) i) (seq 0 (mcols m)) is_) /\
  (exists i, argmin m (-1) = Ok [i] /\ first_min (concat (mrows m)) i) /\
  (forall axis, axis <> 0 -> axis <> 1 -> axis <> -1 -> argmin m axis = Throw InvalidArgument)%Z.
Proof.
  exact (fun m Hok Hc Hr =>
    conj (@argext_rows _ _ arg_coeff_min m Hok Hc) (conj (@argext_cols _ _ arg_coeff_min m Hr)
    (conj (@argext_all _ _ arg_coeff_min m Hok Hc Hr)
          (fun axis H0 H1 H2 => argext_bad _ m H0 H1 H2)))).
Qed.
Print Assumptions C13_argmin.
Example C13_argmin_case := C13_argmin M33 (proj1 M33_ok) (proj1 (Nat.ltb_lt 0 3) eq_refl) ltac:(discriminate).

Example C13_run : argmax M33 1 = Ok [0;0;0] /\ argmax M33 0 = Ok [2;2;2] /\ argmin M33 (-1) = Ok [5].
Proof. repeat split. Qed.

(** C13: the pair overload returns the first pair with the greatest second component. *)
Theorem C13_max_element :
  forall (l : list (Z * Z)), l <> [] ->
  exists e pre post, max_element l = Ok e /\ l = pre ++ e :: post /\
    (forall e', In e' pre -> (snd e' < snd e)%Z) /\ (forall e', In e' post -> (snd e' <= snd e)%Z).
Proof. exact (@max_element_spec Z). Qed.
Print Assumptions C13_max_element.
Example C13_max_element_case : max_element [(1, 5); (2, 9); (3, 9)]%Z = Ok (2, 9)%Z /\ [(1, 5); (2, 9); (3, 9)]%Z <> [].
Proof. split; [reflexivity|discriminate]. Qed.

(** C14.  argsort on lines of at least 3 entries. *)
Theorem C14_argsort :
  forall m reverse, mat_ok m ->
  (3 <= mcols m -> exists res, argsort m 1 reverse = Ok res /\
     Forall2 (sorting_indices reverse) (mrows m) res) /\
  (3 <= length (mrows m) -> exists res, argsort m 0 reverse = Ok res /\
     Forall2 (fun j idx => sorting_indices reverse (column j (mrows m)) idx) (seq 0 (mcols m)) res).
Proof. exact (fun m rv Hok => conj (argsort_rows rv Hok) (argsort_cols m rv)). Qed.
Print Assumptions C14_argsort.
Example C14_argsort_case := C14_argsort M33 true (proj1 M33_ok).

Example C14_run : argsort M33 1 false = Ok [[1;2;0];[2;1;0];[2;1;0]].
Proof. reflexivity. Qed.

(** C14 refuted for two entries per line (out-of-range read) and one (index 1 of a one-entry line). *)
Theorem C14_argsort_two_refuted :
  forall m reverse, mat_ok m -> mcols m = 2 -> mrows m <> [] -> argsort m 1 reverse = UB.
Proof. exact argsort_two. Qed.
Print Assumptions C14_argsort_two_refuted.
Theorem C14_argsort_one_refuted :
  forall m reverse, mat_ok m -> mcols m = 1 -> argsort m 1 reverse = Ok (map (fun _ => [1]) (mrows m)).
Proof. exact argsort_one. Qed.
Print Assumptions C14_argsort_one_refuted.
(** C14 refuted for the [std::vector] overload: undefined for every non-empty argument. *)
Theorem C14_argsort_vector_refuted :
  forall x reverse, x <> [] -> argsort1d x reverse = UB.
Proof. intros [|a x] reverse H; [contradiction|reflexivity]. Qed.

(** C14.  sort, matrix form. *)
Theorem C14_sort :
  forall m reverse,
  (exists res, sort_mat m 1 reverse = Ok res /\ Forall2 (sorted_version reverse) (mrows m) res) /\
  (exists res, sort_mat m 0 reverse = Ok res /\
     Forall2 (fun j out => sorted_version reverse (column j (mrows m)) out) (seq 0 (mcols m)) res).
Proof. exact (fun m rv => conj (sort_mat_rows m rv) (sort_mat_cols m rv)). Qed.
Print Assumptions C14_sort.

(** C14.  sort, vector-of-vectors form: axis 1 sorts every row, axis 0 every column. *)
Theorem C14_sort_vectors :
  forall x k reverse, x <> [] -> 0 < k -> Forall (fun r => length r = k) x ->
  exists res, sort2d x 0 reverse = Ok res /\ Forall (fun r => length r = k) res /\
    length res = length x /\
    forall j, j < k -> sorted_version reverse (column j x) (column j res).
Proof. exact sort2d_columns. Qed.
Print Assumptions C14_sort_vectors.
Example C14_sort_vectors_case := C14_sort_vectors [[3;1];[1;2];[2;0]]%Z 2 true ltac:(discriminate) ltac:(lia) ltac:(repeat constructor).
Theorem C14_sort_vectors_rows :
  forall x reverse, x <> [] -> hd [] x <> [] ->
  exists res, sort2d x 1 reverse = Ok res /\ Forall2 (sorted_version reverse) x res.
Proof. exact sort2d_rows. Qed.
Print Assumptions C14_sort_vectors_rows.
Example C14_sort_vectors_rows_case := C14_sort_vectors_rows [[3;1];[1;2];[2;0]]%Z false ltac:(discriminate) ltac:(discriminate).
Example C14_vectors_run :
  sort2d [[3;1];[1;2];[2;0]]%Z 0 false = Ok [[1;0];[2;1];[3;2]]%Z.
Proof. reflexivity. Qed.

(** C15.  unique: distinct values ascending, with first positions in the sorted copy. *)
Theorem C15_unique :
  forall x vs ps, unique x = (vs, ps) ->
  StronglySorted Z.lt vs /\ (forall v, In v vs <-> In v x) /\
  (forall s, Permutation x s -> StronglySorted Z.le s -> Forall2 (first_position s) vs ps).
Proof.
  intros x vs ps E. destruct (unique_spec x E) as (H1 & H2 & H3 & _).
  split; [exact H1|]. split; [exact H2|].
  intros s HP HS. rewrite <- (zsort_unique HS HP). exact H3.
Qed.
Print Assumptions C15_unique.
Example C15_unique_case := C15_unique [4;1;4;2;1]%Z _ _ eq_refl.
Example C15_run : unique [4;1;4;2;1]%Z = ([1;2;4]%Z, [0;2;3]).
Proof. reflexivity. Qed.

(** C15 refuted as documented: the indices do not select the values from the argument. *)
Theorem C15_unique_indices_refuted :
  exists x vs ps, unique x = (vs, ps) /\ ~ Forall2 (fun v p => nth_error x p = Some v) vs ps.
Proof.
  exists [3;1]%Z, [1;3]%Z, [0;1]. split; [reflexivity|]. intros H.
  inversion H as [|? ? ? ? H1 _]; subst. discriminate.
Qed.

(** C16.  combinations: every ascending choice of [k] positions exactly once, in
    lexicographic order of positions; hence binomial(n, k) of them. *)
Theorem C16_combinations :
  forall (d : Z) x k,
  exists P, combinations x k = Ok (map (map (fun i => nth i x d)) P) /\
    StronglySorted pos_lt P /\ (forall ps, In ps P <-> position_choice (length x) k ps) /\
    (k <= length x -> length P * (fact k * fact (length x - k)) = fact (length x)) /\
    (length x < k -> P = []).
Proof. exact (@combinations_full Z). Qed.
Print Assumptions C16_combinations.
Example C16_run : combinations [7;8;9]%Z 2 = Ok [[7;8];[7;9];[8;9]]%Z /\ position_choice 3 2 [0;2].
Proof.
  split; [reflexivity|]. repeat split; repeat constructor.
Qed.

(** C17.  remove_duplicate_rows. *)
Theorem C17_remove_duplicate_rows :
  forall X, X <> [] -> hd [] X <> [] ->
  exists idx, remove_duplicate_rows X = Ok (map (fun i => nth i X []) idx) /\
    StronglySorted lt idx /\
    forall i, In i idx <-> i < length X /\ (forall j, j < i -> nth j X [] <> nth i X []).
Proof. exact remove_duplicate_rows_first. Qed.
Print Assumptions C17_remove_duplicate_rows.
Example C17_remove_duplicate_rows_case :=
  C17_remove_duplicate_rows [[1;2];[3;4];[1;2];[5;6];[3;4]]%Z ltac:(discriminate) ltac:(discriminate).
Theorem C17_empty_raises :
  forall X, X = [] \/ hd [] X = [] -> remove_duplicate_rows X = Throw InvalidArgument.
Proof. intros [|[|a r] X] [H|H]; try reflexivity; discriminate. Qed.
Print Assumptions C17_empty_raises.
Example C17_empty_raises_case := C17_empty_raises [[]; [1]; [2]]%Z (or_intror eq_refl).
Example C17_run :
  remove_duplicate_rows [[1;2];[3;4];[1;2];[5;6];[3;4]]%Z = Ok [[1;2];[3;4];[5;6]]%Z.
Proof. reflexivity. Qed.

(** C18. *)
Theorem C18_contains : forall v1 v2, contains v1 v2 = true <-> incl v1 v2.
Proof. exact contains_spec. Qed.
Print Assumptions C18_contains.
(** difference, for any arguments with the sorting flag, or for sorted arguments without. *)
Theorem C18_difference :
  forall v1 v2 sorted, (sorted = true \/ StronglySorted Z.le v1 /\ StronglySorted Z.le v2) ->
  StronglySorted Z.lt (difference v1 v2 sorted) /\
  (forall v, In v (difference v1 v2 sorted) <-> In v v1 /\ ~ In v v2).
Proof. exact difference_spec. Qed.
Print Assumptions C18_difference.
Example C18_difference_case := C18_difference [5;1;3;3]%Z [9;3]%Z true (or_introl eq_refl).
Example C18_difference_sorted_case :=
  C18_difference [1;3;3;5]%Z [3;9]%Z false ltac:(right; split; repeat constructor; lia).
(** The default ([sorted = false]) is wrong on unsorted vectors. *)
Theorem C18_difference_unsorted_refuted :
  exists v1 v2 v, In v (difference v1 v2 false) /\ In v v2.
Proof. exists [2;1]%Z, [1;2]%Z, 1%Z. vm_compute. auto. Qed.
Theorem C18_merge :
  forall (v1 v2 : list Z),
  Permutation (merge v1 v2) (v1 ++ v2) /\
  (forall i, i < length v1 -> i < length v2 ->
     nth_error (merge v1 v2) (2 * i) = nth_error v1 i /\
     nth_error (merge v1 v2) (2 * i + 1) = nth_error v2 i) /\
  skipn (2 * Nat.min (length v1) (length v2)) (merge v1 v2) =
    skipn (length v2) v1 ++ skipn (length v1) v2.
Proof. exact (fun v1 v2 => conj (merge_perm v1 v2) (conj (@merge_nth Z v1 v2) (merge_rest v1 v2))). Qed.
Print Assumptions C18_merge.
Theorem C18_where :
  forall l, StronglySorted lt (where_ l) /\ (forall i, In i (where_ l) <-> nth_error l i = Some true).
Proof. exact where_spec. Qed.
Print Assumptions C18_where.
(** clip(x, max, min): the nearest point of the interval. *)
Theorem C18_clip :
  forall l mx mn, (mn <= mx)%Z ->
  Forall2 (fun x y => (mn <= y <= mx)%Z /\ ((mn <= x <= mx)%Z -> y = x) /\
                      (forall z, (mn <= z <= mx)%Z -> (Z.abs (x - y) <= Z.abs (x - z))%Z)) l (clip l mx mn).
Proof. exact clip_spec. Qed.
Print Assumptions C18_clip.
Example C18_clip_case := C18_clip [-5;2;9]%Z 3%Z 0%Z ltac:(lia).
Example C18_run :
  difference [5;1;3;3]%Z [3;9]%Z true = [1;5]%Z /\ merge [1;3;5]%Z [2]%Z = [1;2;3;5]%Z /\
  where_ [true;false;true] = [0;2] /\ clip [-5;2;9]%Z 3 0 = [0;2;3]%Z.
Proof. repeat split. Qed.

(** C19. *)
Theorem C19_sortrows :
  forall x k reverse, x <> [] -> 0 < k -> Forall (fun r => length r = k) x -> NoDup x ->
  exists r, sortrows x reverse = Ok r /\ Permutation x r /\
            StronglySorted (fun a b => if reverse then lex_lt b a else lex_lt a b) r.
Proof. exact sortrows_ok. Qed.
Print Assumptions C19_sortrows.
Example C19_sortrows_case :=
  C19_sortrows [[2;1];[1;9];[1;3]]%Z 2 false ltac:(discriminate) ltac:(lia) ltac:(repeat constructor)
    ltac:(repeat constructor; simpl; intuition discriminate).
Theorem C19_sortrows_empty :
  forall x reverse, x = [] \/ hd [] x = [] -> sortrows x reverse = Throw InvalidArgument.
Proof. exact sortrows_empty. Qed.
Print Assumptions C19_sortrows_empty.
Example C19_sortrows_empty_case := C19_sortrows_empty [[];[1]]%Z true (or_intror eq_refl).
Theorem C19_sortrows_equal_rows_undefined :
  forall x k reverse, 0 < k -> Forall (fun r => length r = k) x -> ~ NoDup x -> sortrows x reverse = UB.
Proof. exact sortrows_dup. Qed.
Print Assumptions C19_sortrows_equal_rows_undefined.
Example C19_sortrows_equal_rows_undefined_case :=
  C19_sortrows_equal_rows_undefined [[2;1];[1;9];[2;1]]%Z 2 false ltac:(lia) ltac:(repeat constructor)
    ltac:(intros H; inversion H as [|? ? H1 _]; apply H1; simpl; auto).
Example C19_run :
  sortrows [[2;1];[1;9];[1;3]]%Z false = Ok [[1;3];[1;9];[2;1]]%Z /\
  sortrows [[2;1];[1;9];[2;1]]%Z false = UB /\ NoDup [[2;1];[1;9];[1;3]]%Z.
Proof.
  repeat split; repeat constructor; simpl; intuition discriminate.
Qed.

(** C20. *)
Theorem C20_hstack :
  forall x1 x2 m, hstack x1 x2 = Ok m -> mat_ok x1 -> mat_ok x2 ->
  length (mrows x1) = length (mrows x2) /\ mat_ok m /\ mcols m = mcols x1 + mcols x2 /\
  length (mrows m) = length (mrows x1) /\
  forall i, nth i (mrows m) [] = nth i (mrows x1) [] ++ nth i (mrows x2) [].
Proof. exact hstack_spec. Qed.
Print Assumptions C20_hstack.
Example C20_hstack_case :=
  C20_hstack (Mat 1 [[1];[2]]%Z) (Mat 2 [[3;5];[4;6]]%Z) _ eq_refl ltac:(repeat constructor) ltac:(repeat constructor).
Theorem C20_vstack :
  forall x1 x2 m, vstack x1 x2 = Ok m -> mat_ok x1 -> mat_ok x2 ->
  mcols x1 = mcols x2 /\ mat_ok m /\ mcols m = mcols x1 /\ mrows m = mrows x1 ++ mrows x2.
Proof. exact vstack_spec. Qed.
Print Assumptions C20_vstack.
Example C20_vstack_case :=
  C20_vstack (Mat 2 [[1;2]]%Z) (Mat 2 [[3;5];[4;6]]%Z) _ eq_refl ltac:(repeat constructor) ltac:(repeat constructor).
Theorem C20_stack_sizes :
  forall x1 x2,
  (length (mrows x1) <> length (mrows x2) -> hstack x1 x2 = Throw InvalidArgument) /\
  (mcols x1 <> mcols x2 -> vstack x1 x2 = Throw InvalidArgument) /\
  (length (mrows x1) = length (mrows x2) -> exists m, hstack x1 x2 = Ok m) /\
  (mcols x1 = mcols x2 -> exists m, vstack x1 x2 = Ok m).
Proof. exact hstack_vstack_throw. Qed.
Print Assumptions C20_stack_sizes.
Theorem C20_repeat_rows :
  forall m n, let r := repeat_mat m n 0 in
  mcols r = mcols m /\ length (mrows r) = n * length (mrows m) /\
  forall q i, q < n -> i < length (mrows m) ->
    nth_error (mrows r) (q * length (mrows m) + i) = nth_error (mrows m) i.
Proof. exact repeat_rows. Qed.
Print Assumptions C20_repeat_rows.
Theorem C20_repeat_cols :
  forall m n, mat_ok m -> let r := repeat_mat m n 1 in
  mat_ok r /\ mcols r = mcols m * n /\ length (mrows r) = length (mrows m) /\
  forall i q j, i < length (mrows m) -> q < n -> j < mcols m ->
    nth_error (nth i (mrows r) []) (q * mcols m + j) = nth_error (nth i (mrows m) []) j.
Proof. exact repeat_cols. Qed.
Print Assumptions C20_repeat_cols.
Example C20_repeat_cols_case := C20_repeat_cols M33 4 (proj1 M33_ok).
(** Flattening is row-major. *)
Theorem C20_flatten :
  forall m i j, mat_ok m -> j < mcols m ->
  nth_error (flatten_mat m) (i * mcols m + j) =
    match nth_error (mrows m) i with Some r => nth_error r j | None => None end.
Proof. exact (fun m i j Hok Hj => @nth_error_concat Z (mcols m) (mrows m) i j Hok Hj). Qed.
Print Assumptions C20_flatten.
Example C20_flatten_case := C20_flatten M33 1 2 (proj1 M33_ok) (proj1 (Nat.ltb_lt 2 3) eq_refl).
(** vec2mat keeps the rows, and flattening the matrix or the vector of rows agree. *)
Theorem C20_vec2mat :
  forall v m, vec2mat v = Ok m -> mat_ok m /\ mrows m = v /\ flatten_mat m = flatten_vec v.
Proof. exact vec2mat_spec. Qed.
Print Assumptions C20_vec2mat.
Example C20_vec2mat_case := C20_vec2mat [[1;2];[3;4];[5;6]]%Z _ eq_refl.
Theorem C20_vec2mat_ok :
  forall v k, v <> [] -> 0 < k -> Forall (fun r => length r = k) v -> vec2mat v = Ok (Mat k v).
Proof. exact vec2mat_Ok. Qed.
Print Assumptions C20_vec2mat_ok.
Example C20_vec2mat_ok_case :=
  C20_vec2mat_ok [[1;2];[3;4];[5;6]]%Z 2 ltac:(discriminate) ltac:(lia) ltac:(repeat constructor).
Theorem C20_vec2mat_ragged :
  vec2mat [] = Throw OutOfRange /\
  forall r0 v, r0 <> [] -> Exists (fun r => length r <> length r0) v ->
  vec2mat (r0 :: v) = Throw InvalidArgument.
Proof. exact (conj eq_refl vec2mat_ragged). Qed.
Print Assumptions C20_vec2mat_ragged.
Example C20_vec2mat_ragged_case :=
  proj2 C20_vec2mat_ragged [1;2]%Z [[3;4];[5]]%Z ltac:(discriminate) ltac:(right; left; discriminate).
(** slice of rows r0..r1 and columns c0..c1 (inclusive), when at most as many columns are
    requested as there are rows. *)
Theorem C20_slice2d :
  forall x r0 r1 c0 c1,
  (Z.of_nat (length x) < 2 ^ 64)%Z -> (Z.of_nat c1 < 2 ^ 64)%Z ->
  r0 <= r1 < length x -> c0 <= c1 -> Forall (fun r => c1 < length r) x ->
  c1 - c0 < length x ->
  slice2d x r0 r1 c0 c1 =
    Ok (map (fun i => firstn (S c1 - c0) (skipn c0 (nth i x []))) (seq r0 (S r1 - r0))).
Proof. exact slice2d_spec. Qed.
Print Assumptions C20_slice2d.
Example C20_slice2d_case :=
  C20_slice2d [[1;2;3];[4;5;6];[7;8;9]]%Z 1 2 0 1 ltac:(reflexivity) ltac:(reflexivity) ltac:(simpl; lia) ltac:(lia)
    ltac:(repeat constructor) ltac:(simpl; lia).
(** refuted otherwise: the column check compares with the number of rows. *)
Theorem C20_slice2d_wide_refuted :
  forall x r0 r1 c0 c1,
  (Z.of_nat (length x) < 2 ^ 64)%Z -> (Z.of_nat c1 < 2 ^ 64)%Z ->
  0 < length x -> c0 <= c1 -> length x <= c1 - c0 ->
  slice2d x r0 r1 c0 c1 = Throw InvalidArgument.
Proof. exact slice2d_wide. Qed.
Print Assumptions C20_slice2d_wide_refuted.
(** The one-dimensional slice never returns: every accepted request reads past the end. *)
Theorem C20_slice1d_refuted :
  forall x s e,
  (forall r, slice1d x s e <> Ok r) /\
  ((Z.of_nat (length x) < 2 ^ 64)%Z -> s <= e < length x -> slice1d x s e = UB).
Proof. exact (fun x s e => conj (slice1d_never x s e) (slice1d_ub x (s := s) (e := e))). Qed.
Print Assumptions C20_slice1d_refuted.
Example C20_run :
  hstack (Mat 1 [[1];[2]]%Z) (Mat 1 [[3];[4]]%Z) = Ok (Mat 2 [[1;3];[2;4]]%Z) /\
  slice2d [[1;2;3];[4;5;6];[7;8;9]]%Z 1 2 0 1 = Ok [[4;5];[7;8]]%Z.
Proof. split; reflexivity. Qed.
