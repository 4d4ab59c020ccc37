From Coq Require Import Ascii Reals Lra.
From Verif Require Import Base Load_Model Load_Spec.
Set Implicit Arguments.

(** * Lines *)
Lemma get_lines_line l s : ~ In newline l -> get_lines (l ++ newline :: s) = l :: get_lines s.
Proof.
  induction l as [|c l IH]; intro H.
  - cbn [app get_lines]. now rewrite Ascii.eqb_refl.
  - cbn [app get_lines]. destruct (Ascii.eqb_spec c newline) as [->|_]; [exfalso; apply H; now left|]. rewrite IH by (intro; apply H; now right). reflexivity.
Qed.
Lemma get_lines_last l : ~ In newline l -> l <> [] -> get_lines l = [l].
Proof.
  induction l as [|c l IH]; intros H N; [congruence|]. cbn [get_lines]. destruct (Ascii.eqb_spec c newline) as [->|_]; [exfalso; apply H; now left|].
  destruct l as [|d l]; [reflexivity|]. rewrite IH; [reflexivity|intro; apply H; now right|discriminate].
Qed.
Lemma blank_space c : blank c -> is_space c = true.
Proof. intro H. cbn in H. repeat (destruct H as [<-|H]; [reflexivity|]). contradiction. Qed.
Lemma blank_newline c : blank c -> c <> newline.
Proof. intros H ->. cbn in H. repeat (destruct H as [H|H]; [discriminate|]). contradiction. Qed.
Lemma blanks_newline w : blanks w -> ~ In newline w.
Proof. intros H Hin. exact (blank_newline (H _ Hin) eq_refl). Qed.
Lemma skip_blanks w s : blanks w -> skip_spaces (w ++ s) = skip_spaces s.
Proof. induction w as [|c w IH]; intro H; [reflexivity|]. cbn [app skip_spaces]. rewrite (blank_space (H c (or_introl eq_refl))). apply IH. intros d Hd. apply H. now right. Qed.

Section Reader.
  Variable T : Type.
  Variable zero : T.
  Variable denotes : list ascii -> T -> Prop.
  Variable get : text -> option (T * text).
  Hypothesis G : reads denotes get.

  Lemma get_row_total s : forall fuel, (length s < fuel)%nat -> exists r, get_row get fuel s = Ok r.
  Proof.
    intro fuel. revert s. induction fuel as [|f IH]; intros s H; [lia|]. cbn [get_row]. destruct (get s) as [(v, s')|] eqn:E; [|eauto].
    apply (reads_shrinks G) in E. destruct (IH s') as (r & ->); [lia|]. cbn. eauto.
  Qed.
  Lemma read_rows_total s : exists rows, read_rows get s = Ok rows.
  Proof.
    unfold read_rows. induction (get_lines s) as [|l ls (rows & E)]; cbn [mapM]; [eauto|]. destruct (@get_row_total l (S (length l))) as (r & Er); [lia|]. rewrite Er. cbn [bind]. rewrite E. cbn. eauto.
  Qed.
  Lemma line_newline l vs : line_of denotes l vs -> ~ In newline l.
  Proof.
    induction 1 as [w Hw|w t v rest vs Hw Ht _ _ IH]; [now apply blanks_newline|]. rewrite !in_app_iff. intros [H|[H|H]]; [now apply (blanks_newline Hw)|now apply (reads_inline G _ _ Ht)|auto].
  Qed.
  Lemma line_row l vs : line_of denotes l vs -> forall fuel, (length l < fuel)%nat -> get_row get fuel l = Ok vs.
  Proof.
    induction 1 as [w Hw|w t v rest vs Hw Ht HR _ IH]; intros [|f] F; try lia; cbn [get_row].
    - now rewrite (reads_nothing G _ Hw).
    - assert (E : get (w ++ t ++ rest) = Some (v, rest)) by (apply (reads_number G); auto; destruct HR as [->|(c & r & -> & B)]; [now left|right; eauto]).
      rewrite E. apply (reads_shrinks G) in E. rewrite IH by lia. reflexivity.
  Qed.
  Lemma comma_newline l vs : comma_line_of denotes l vs -> ~ In newline l.
  Proof.
    induction 1 as [t v Ht|t v rest vs Ht _ IH]; [exact (reads_inline G _ _ Ht)|]. rewrite in_app_iff. intros [H|[H|H]]; [now apply (reads_inline G _ _ Ht)|discriminate|auto].
  Qed.
  Lemma comma_row l vs : comma_line_of denotes l vs -> forall fuel, (length l < fuel)%nat -> exists v, get_row get fuel l = Ok [v] /\ exists vs', vs = v :: vs'.
  Proof.
    intros H fuel F. destruct fuel as [|f]; [lia|]. cbn [get_row]. destruct H as [t v Ht|t v rest vs Ht _].
    - exists v. split; [|eauto]. assert (E : get t = Some (v, [])). { pose proof (reads_number G [] _ _ [] ltac:(intros ? []) Ht (or_introl eq_refl)) as H. cbn in H. now rewrite app_nil_r in H. }
      rewrite E. apply (reads_shrinks G) in E. destruct f as [|f]; [lia|]. cbn [get_row]. rewrite (reads_nothing G []) by (intros ? []). reflexivity.
    - exists v. split; [|eauto]. assert (E : get (t ++ ","%char :: rest) = Some (v, ","%char :: rest)).
      { pose proof (reads_number G [] _ _ (","%char :: rest) ltac:(intros ? []) Ht ltac:(right; eauto)) as H. exact H. }
      rewrite E. apply (reads_shrinks G) in E. destruct f as [|f]; [lia|]. cbn [get_row]. rewrite (reads_comma G). reflexivity.
  Qed.

  (** The rows read from a text of lines whose rows are known. *)
  Lemma text_rows (line : list ascii -> list T -> Prop) (row : list T -> list T -> Prop) s rs : text_of line s rs ->
    (forall l r, line l r -> ~ In newline l) -> (forall l r, line l r -> exists r', get_row get (S (length l)) l = Ok r' /\ row r r') ->
    exists rows, read_rows get s = Ok rows /\ Forall2 row rs rows.
  Proof.
    intros H HN HR. unfold read_rows. induction H as [|l r Hl L|l r s rs L _ (rows & E & F)].
    - exists []. split; [reflexivity|constructor].
    - rewrite get_lines_last by (eauto). destruct (HR _ _ L) as (r' & E & B). cbn [mapM]. rewrite E. cbn. exists [r']. auto.
    - fold newline. rewrite get_lines_line by eauto. destruct (HR _ _ L) as (r' & Er & B). cbn [mapM]. rewrite Er. cbn [bind]. rewrite E. cbn. exists (r' :: rows). auto.
  Qed.
  Lemma read_text s rs : text_of (line_of denotes) s rs -> read_rows get s = Ok rs.
  Proof.
    intro H. destruct (text_rows eq H line_newline) as (rows & E & F).
    - intros l r L. exists r. split; [|reflexivity]. apply (line_row L). lia.
    - rewrite E. f_equal. clear - F. induction F; congruence.
  Qed.
  Lemma read_comma s rs : text_of (comma_line_of denotes) s rs -> exists rows, read_rows get s = Ok rows /\ Forall2 (fun r r' => exists v vs, r = v :: vs /\ r' = [v]) rs rows.
  Proof.
    intro H. apply (text_rows (fun r r' => exists v vs, r = v :: vs /\ r' = [v]) H comma_newline). intros l r L. destruct (comma_row L (fuel := S (length l))) as (v & E & vs & ->); [lia|]. eauto 6.
  Qed.

  (** The overloads on the rows read. *)
  Lemma mapM_UB A B (f : A -> outcome B) l a : (forall x, In x l -> f x = UB \/ exists b, f x = Ok b) -> In a l -> f a = UB -> mapM f l = UB.
  Proof.
    induction l as [|x l IH]; intros H Hin Ha; [contradiction|]. cbn [mapM]. destruct (H x (or_introl eq_refl)) as [-> | (b & E)]; [reflexivity|]. rewrite E. cbn. destruct Hin as [->|Hin]; [congruence|]. rewrite IH; auto. intros; apply H; now right.
  Qed.
  Lemma nth_firstn_lt A (d : A) n : forall i q, (i < n)%nat -> nth i (firstn n q) d = nth i q d.
  Proof. induction n as [|n IH]; intros i q H; [lia|]. destruct q as [|a q]; [now destruct i|]. destruct i as [|i]; [reflexivity|]. cbn. apply IH. lia. Qed.
  Lemma map_row_cases n (r : list T) : map_row n r = UB \/ exists b, map_row n r = Ok b.
  Proof. unfold map_row. destruct (length r =? 0)%nat, (length r <? n)%nat; eauto. Qed.
  Lemma eigen_rows s r rows : read_rows get s = Ok (r :: rows) ->
    loadtxt_eigen zero get (Some s) = if forallb (fun q => (1 <=? length q) && (length r <=? length q))%nat (r :: rows)
      then Ok (map (firstn (length r - 1)) (r :: rows), map (fun q => nth (length r - 1) q zero) (r :: rows)) else UB.
  Proof.
    intro E. unfold loadtxt_eigen. rewrite E. cbn [bind vget nth_error]. destruct (forallb _ _) eqn:F.
    - rewrite (mapM_Ok (map_row (length r)) (firstn (length r))).
      + cbn [bind]. rewrite !map_map. rewrite forallb_forall in F. assert (L1 : (1 <= length r)%nat). { specialize (F r (or_introl eq_refl)). apply andb_true_iff in F. destruct F as (F & _). now apply Nat.leb_le. }
        f_equal. f_equal; apply map_ext; intro q.
        * rewrite firstn_firstn. f_equal. lia.
        * apply nth_firstn_lt. lia.
      + intros q Hq. rewrite forallb_forall in F. specialize (F q Hq). apply andb_true_iff in F. destruct F as (F1 & F2). apply Nat.leb_le in F1, F2. unfold map_row. destruct (Nat.eqb_spec (length q) 0); [lia|]. destruct (Nat.ltb_spec (length q) (length r)); [lia|reflexivity].
    - assert (exists q, In q (r :: rows) /\ map_row (length r) q = UB) as (q & Hq & Eq).
      { clear - F. revert F. generalize (r :: rows) as l. intro l. induction l as [|q l IH]; intro F; [discriminate|]. cbn [forallb] in F. apply andb_false_iff in F. destruct F as [F|F].
        - exists q. split; [now left|]. unfold map_row. apply andb_false_iff in F. destruct F as [F|F]; apply Nat.leb_gt in F; destruct (Nat.eqb_spec (length q) 0); try lia; auto. destruct (Nat.ltb_spec (length q) (length r)); [auto|lia].
        - destruct (IH F) as (x & Hx & E). exists x. split; [now right|assumption]. }
      rewrite (@mapM_UB _ _ _ (r :: rows) q); auto. intros x _. apply map_row_cases.
  Qed.
  Lemma eigen_no_rows s : read_rows get s = Ok [] -> loadtxt_eigen zero get (Some s) = UB.
  Proof. intro E. unfold loadtxt_eigen. now rewrite E. Qed.

  Lemma combine_repeat A B (a : A) (l : list B) : combine (repeat a (length l)) l = map (fun b => (a, b)) l.
  Proof. induction l as [|b l IH]; [reflexivity|]. cbn. now rewrite IH. Qed.
  Lemma firstn_all_eq A n (l : list A) : n = length l -> firstn n l = l.
  Proof. intros ->. apply firstn_all. Qed.
  Lemma nth_last (r : list T) n : length r = S n -> nth n r zero = last r zero.
  Proof.
    revert n. induction r as [|a r IH]; intros n L; [discriminate|]. destruct r as [|b r]; [cbn in L; replace n with O by lia; reflexivity|]. destruct n as [|n]; [discriminate|]. change (last (a :: b :: r) zero) with (last (b :: r) zero). cbn [nth]. apply IH. cbn in *. lia.
  Qed.
  Lemma split_rows s r rows X y : read_rows get s = Ok (r :: rows) -> (0 < length r)%nat -> (forall q, In q (r :: rows) -> length r <= length q)%nat ->
    (length X <= length (r :: rows))%nat -> (forall q, In q X -> length q = length r - 1)%nat ->
    loadtxt_split zero get (Some s) X y = Ok (map (firstn (length r - 1)) (r :: rows), y ++ map (fun q => last q zero) (r :: rows)).
  Proof.
    intros E P L LX WX. unfold loadtxt_split. rewrite E. cbn [bind vget nth_error]. destruct (Nat.eqb_spec (length r) 0); [lia|].
    set (m := (length r - 1)%nat). set (X1 := resize_rows X (length (r :: rows)) (repeat zero m)).
    assert (W1 : forall q, In q X1 -> length q = m). { intros q Hq. unfold X1, resize_rows in Hq. apply in_app_or in Hq. destruct Hq as [Hq|Hq]; [apply WX; rewrite <- (firstn_skipn (length (r :: rows)) X); apply in_or_app; now left|]. apply repeat_spec in Hq. subst q. apply repeat_length. }
    assert (L1 : length X1 = length (r :: rows)). { unfold X1, resize_rows. rewrite app_length, firstn_length, repeat_length. lia. }
    rewrite (mapM_Ok _ (fun e => (firstn m (snd e), last (snd e) zero))).
    - cbn [bind]. rewrite !map_map. cbn [fst snd]. assert (ES : map snd (combine X1 (r :: rows)) = r :: rows).
      { clear - L1. revert L1. generalize (r :: rows) as l. intro l. revert l. induction X1 as [|a X1 IH]; intros [|b l] L; try discriminate; [reflexivity|]. cbn. f_equal. apply IH. now injection L. }
      transitivity (Ok (map (firstn m) (map snd (combine X1 (r :: rows))), y ++ map (fun q => last q zero) (map snd (combine X1 (r :: rows))))); [now rewrite !map_map|now rewrite ES].
    - intros (a, b) Hin. cbn [fst snd]. assert (Hb := in_combine_r _ _ _ _ Hin). assert (Ha := in_combine_l _ _ _ _ Hin). specialize (L b Hb). unfold copy_row. rewrite (W1 a Ha).
      rewrite (proj2 (Nat.ltb_ge m m) ltac:(lia)), (proj2 (Nat.ltb_ge (length b) m) ltac:(unfold m; lia)). cbn [orb bind]. rewrite (skipn_all2 a) by (rewrite (W1 a Ha); lia). rewrite app_nil_r. destruct b as [|b0 b]; [cbn in L; lia|]. reflexivity.
  Qed.
End Reader.

(** * Numbers *)
Lemma is_digit_cases c d : is_digit c d -> digit c = Some d /\ is_space c = false /\ Ascii.eqb c "-"%char = false /\ Ascii.eqb c "+"%char = false /\ c <> newline.
Proof.
  intros (H & P). assert (B : (d < 10)%Z). { destruct (Z_lt_ge_dec d 10); [assumption|]. exfalso. assert (nth_error ["0"; "1"; "2"; "3"; "4"; "5"; "6"; "7"; "8"; "9"]%char (Z.to_nat d) <> None) by (rewrite H; discriminate). apply nth_error_Some in H0. cbn in H0. lia. }
  assert (d = 0 \/ d = 1 \/ d = 2 \/ d = 3 \/ d = 4 \/ d = 5 \/ d = 6 \/ d = 7 \/ d = 8 \/ d = 9)%Z as C by lia.
  repeat (destruct C as [->|C]; [cbn in H; injection H as <-; now repeat split|]). subst d. cbn in H. injection H as <-. now repeat split.
Qed.
Lemma digits_number ds n : number ds n -> forall acc k rest, digits acc k (ds ++ rest) = digits (acc * 10 ^ Z.of_nat (length ds) + n) (k + length ds) rest.
Proof.
  induction 1 as [|ds n c d N IH D]; intros acc k rest.
  - cbn [app length Z.of_nat]. replace (acc * 10 ^ 0 + 0)%Z with acc by (rewrite Z.pow_0_r; lia). now rewrite Nat.add_0_r.
  - rewrite <- app_assoc, IH. cbn [app digits]. rewrite (proj1 (is_digit_cases D)). rewrite app_length. cbn [length]. f_equal; [|lia]. rewrite Nat.add_1_r, Nat2Z.inj_succ, Z.pow_succ_r by lia. ring.
Qed.
Definition stops (rest : text) : Prop := match rest with [] => True | c :: _ => digit c = None end.
Lemma digits_stop acc k rest : stops rest -> digits acc k rest = (acc, k, rest).
Proof. destruct rest as [|c r]; [reflexivity|]. cbn. now intros ->. Qed.
Lemma digits_all ds n acc k rest : number ds n -> stops rest -> digits acc k (ds ++ rest) = ((acc * 10 ^ Z.of_nat (length ds) + n)%Z, (k + length ds)%nat, rest).
Proof. intros N Hs. rewrite (digits_number N). now apply digits_stop. Qed.
Lemma number_in ds n : number ds n -> forall c, In c ds -> exists d, is_digit c d.
Proof. induction 1 as [|ds n c d N IH D]; intros x Hx; [contradiction|]. apply in_app_or in Hx. destruct Hx as [Hx|[<-|[]]]; eauto. Qed.
Lemma digit_stop_blank c : blank c \/ c = ","%char -> digit c = None.
Proof. intros [H| ->]; [|reflexivity]. cbn in H. repeat (destruct H as [<-|H]; [reflexivity|]). contradiction. Qed.
Lemma rest_stops rest : rest = [] \/ (exists c r, rest = c :: r /\ (blank c \/ c = ","%char)) -> stops rest.
Proof. intros [->|(c & r & -> & H)]; [exact I|]. cbn. now apply digit_stop_blank. Qed.

(** A non-empty run of characters that begins with none of the characters [p]. *)
Definition heads (p : ascii -> bool) (s : text) : Prop := match s with [] => True | c :: _ => p c = false end.
Lemma number_heads ds n (p : ascii -> bool) rest : number ds n -> (forall c d, is_digit c d -> p c = false) -> (ds = [] -> heads p rest) -> heads p (ds ++ rest).
Proof. intros N P H. destruct ds as [|c ds]; [now apply H|]. cbn. destruct (number_in N c (or_introl eq_refl)) as (d & D). eauto. Qed.
Lemma skip_heads s : heads is_space s -> skip_spaces s = s.
Proof. destruct s as [|c s]; [reflexivity|]. cbn. now intros ->. Qed.
Definition is_sign (c : ascii) : bool := Ascii.eqb c "-"%char || Ascii.eqb c "+"%char.
Lemma sign_of_spec s sg rest : sign s sg -> heads is_sign rest -> sign_of (s ++ rest) = (sg, rest).
Proof.
  intros H Hr. destruct H; cbn; try reflexivity. destruct rest as [|c r]; [reflexivity|]. cbn in Hr |- *. unfold is_sign in Hr. apply orb_false_iff in Hr. destruct Hr as (-> & ->). reflexivity.
Qed.
Lemma sign_heads s sg rest : sign s sg -> heads is_space rest -> heads is_space (s ++ rest).
Proof. intros [] H; [exact H|reflexivity|reflexivity]. Qed.
Lemma digit_not_space c d : is_digit c d -> is_space c = false.
Proof. intro H. now destruct (is_digit_cases H) as (_ & ? & _). Qed.
Lemma digit_not_sign c d : is_digit c d -> is_sign c = false.
Proof. intro H. destruct (is_digit_cases H) as (_ & _ & E1 & E2 & _). unfold is_sign. now rewrite E1, E2. Qed.

Lemma skip_spaces_shrinks s : (length (skip_spaces s) <= length s)%nat.
Proof. induction s as [|c s IH]; cbn; [lia|]. destruct (is_space c); cbn; lia. Qed.
Lemma sign_of_shrinks s : (length (snd (sign_of s)) <= length s)%nat.
Proof. destruct s as [|c s]; cbn; [lia|]. destruct (Ascii.eqb c "-"); [cbn; lia|]. destruct (Ascii.eqb c "+"); cbn; lia. Qed.
Lemma digits_shrinks s : forall acc k, let '(v, n, r) := digits acc k s in (length r + n = length s + k)%nat.
Proof. induction s as [|c s IH]; intros acc k; cbn; [lia|]. destruct (digit c); [|cbn; lia]. specialize (IH (10 * acc + z)%Z (S k)). destruct (digits _ _ s) as ((v, n), r). lia. Qed.

Lemma blanks_skip w : blanks w -> skip_spaces w = [].
Proof. intro H. rewrite <- (app_nil_r w), skip_blanks by assumption. reflexivity. Qed.
Lemma letter_chars c : (65 <= nat_of_ascii c <= 122)%nat -> is_space c = false /\ is_sign c = false /\ digit c = None /\ Ascii.eqb c "."%char = false.
Proof.
  intro H. split; [|split; [|split]].
  - unfold is_space. rewrite (proj2 (Nat.eqb_neq _ _)) by lia. rewrite (proj2 (Nat.leb_gt (nat_of_ascii c) 13)) by lia. now rewrite andb_false_r.
  - unfold is_sign. destruct (Ascii.eqb_spec c "-") as [->|_]; [cbn in H; lia|]. destruct (Ascii.eqb_spec c "+") as [->|_]; [cbn in H; lia|reflexivity].
  - unfold digit. rewrite (proj2 (Nat.leb_gt (nat_of_ascii c) 57)) by lia. now rewrite andb_false_r.
  - destruct (Ascii.eqb_spec c ".") as [->|_]; [cbn in H; lia|reflexivity].
Qed.
Lemma sign_of_other c s : is_sign c = false -> sign_of (c :: s) = (1%Z, c :: s).
Proof. unfold is_sign. intro H. apply orb_false_iff in H. destruct H as (H1 & H2). cbn. now rewrite H1, H2. Qed.

Lemma int_reads lo hi : reads (integer lo hi) (get_int lo hi).
Proof.
  constructor.
  - intros w t v rest Hw (s & ds & sg & n & -> & S1 & N & Nd & -> & B) HR. unfold get_int. rewrite skip_blanks by assumption. rewrite <- app_assoc.
    assert (HS : heads is_space (ds ++ rest)) by (apply (number_heads _ _ N digit_not_space); intro; contradiction). assert (HG : heads is_sign (ds ++ rest)) by (apply (number_heads _ _ N digit_not_sign); intro; contradiction).
    rewrite (skip_heads (s ++ ds ++ rest)) by (eapply sign_heads; eauto). rewrite (sign_of_spec _ S1 HG). rewrite (digits_all 0 0 _ N (rest_stops HR)). cbn [Nat.add Z.mul Z.add]. destruct ds as [|c ds]; [congruence|]. cbn [length Nat.eqb]. rewrite (proj2 (Z.leb_le _ _)), (proj2 (Z.leb_le _ _)) by lia. reflexivity.
  - intros w Hw. unfold get_int. rewrite blanks_skip by assumption. reflexivity.
  - intros r. reflexivity.
  - intros w c r Hw Hc. destruct (letter_chars _ Hc) as (E1 & E2 & E3 & _). unfold get_int. rewrite skip_blanks by assumption. cbn [skip_spaces]. rewrite E1, sign_of_other by assumption. cbn [digits]. rewrite E3. reflexivity.
  - intros s v r. unfold get_int. pose proof (skip_spaces_shrinks s) as L1. pose proof (sign_of_shrinks (skip_spaces s)) as L2. destruct (sign_of (skip_spaces s)) as (sg, s1). cbn [snd] in L2. pose proof (digits_shrinks s1 0 0) as L3. destruct (digits 0 0 s1) as ((a, n), s2). destruct (Nat.eqb_spec n 0); [discriminate|].
    destruct (_ && _); [|discriminate]. intro E. injection E as <- <-. lia.
  - intros t v (s & ds & sg & n & -> & S1 & N & _) Hin. apply in_app_or in Hin. destruct Hin as [Hin|Hin].
    + destruct S1; cbn in Hin; try contradiction; destruct Hin as [Hin|[]]; discriminate.
    + destruct (number_in N _ Hin) as (d & D). now destruct (is_digit_cases D) as (_ & _ & _ & _ & Ne).
Qed.

(** * Floating point numbers *)
Lemma number_bound ds n : number ds n -> (0 <= n)%Z.
Proof. induction 1 as [|ds n c d N IH (_ & D)]; lia. Qed.
Lemma sign_heads_dot (p : ascii -> bool) f fp rest : fraction f fp -> p "."%char = false -> (f = [] -> heads p rest) -> heads p (f ++ rest).
Proof. intros [(-> & ->)| ->] Hp H; [now apply H|exact Hp]. Qed.
Lemma digit_not_dot c d : is_digit c d -> Ascii.eqb c "."%char = false.
Proof. intro H. destruct (Ascii.eqb_spec c ".") as [->|]; [|reflexivity]. destruct (is_digit_cases H) as (E & _). discriminate. Qed.
Definition is_exp (c : ascii) : bool := Ascii.eqb c "e"%char || Ascii.eqb c "E"%char.
Lemma blank_chars c : blank c \/ c = ","%char -> digit c = None /\ Ascii.eqb c "."%char = false /\ is_exp c = false.
Proof. intros [H| ->]; [|now repeat split]. cbn in H. repeat (destruct H as [<-|H]; [now repeat split|]). contradiction. Qed.

(** The characters after the integer part and after the mantissa. *)
Lemma exponent_stops ex e rest : exponent ex e -> (rest = [] \/ exists c r, rest = c :: r /\ (blank c \/ c = ","%char)) -> stops (ex ++ rest) /\ heads (fun c => Ascii.eqb c "."%char) (ex ++ rest).
Proof.
  intros [(-> & _)|(c & s & ds & sg & n & [-> | ->] & -> & _)] HR; [|split; reflexivity|split; reflexivity]. cbn [app]. destruct HR as [->|(c & r & -> & B)]; [now split|]. destruct (blank_chars B) as (E1 & E2 & _). now split.
Qed.

Lemma mantissa_value sg i n k e : (IZR (sg * (i * 10 ^ Z.of_nat k + n)) * powerRZ 10 (e - Z.of_nat k) = IZR sg * (IZR i + IZR n / 10 ^ k) * powerRZ 10 e)%R.
Proof.
  assert (P : (10 ^ k <> 0)%R) by (apply pow_nonzero; lra). replace (e - Z.of_nat k)%Z with (e + - Z.of_nat k)%Z by lia. rewrite powerRZ_add by lra. rewrite powerRZ_neg', <- pow_powerRZ.
  rewrite mult_IZR, plus_IZR, mult_IZR. replace (IZR (10 ^ Z.of_nat k)) with (10 ^ k)%R by (rewrite pow_IZR; reflexivity). field. exact P.
Qed.

Lemma real_reads : reads real_number get_real.
Proof.
  constructor.
  - intros w t v rest Hw (s & ip & f & fp & ex & sg & i & n & e & -> & S1 & NI & F & NF & Ne & HE & ->) HR. unfold get_real. rewrite skip_blanks by assumption. rewrite <- !app_assoc.
    assert (Nf : ip = [] -> f <> []) by (intros -> ->; destruct F as [(_ & ->)|F]; [now apply Ne|discriminate]).
    assert (HS : heads is_space (ip ++ f ++ ex ++ rest)) by (apply (number_heads _ _ NI digit_not_space); intro E; apply (sign_heads_dot _ _ F eq_refl); intro E'; now apply Nf in E).
    assert (HG : heads is_sign (ip ++ f ++ ex ++ rest)) by (apply (number_heads _ _ NI digit_not_sign); intro E; apply (sign_heads_dot _ _ F eq_refl); intro E'; now apply Nf in E).
    destruct (exponent_stops HE HR) as (X1 & X2).
    rewrite (skip_heads (s ++ ip ++ f ++ ex ++ rest)) by (eapply sign_heads; eauto). rewrite (sign_of_spec _ S1 HG).
    assert (Hst : stops (f ++ ex ++ rest)) by (destruct F as [(-> & _)| ->]; [exact X1|reflexivity]).
    rewrite (digits_all 0 0 _ NI Hst). cbn [Nat.add Z.mul Z.add]. set (m := length ip).
    assert (EF : (match f ++ ex ++ rest with c :: s2' => if Ascii.eqb c "."%char then digits i 0 s2' else (i, O, f ++ ex ++ rest) | [] => (i, O, f ++ ex ++ rest) end) = ((i * 10 ^ Z.of_nat (length fp) + n)%Z, length fp, ex ++ rest)).
    { destruct F as [(-> & ->)| ->].
      - cbn [app length Z.of_nat]. assert (n = 0)%Z by (inversion NF; auto; destruct ds; discriminate). subst n. rewrite Z.pow_0_r, Z.mul_1_r, Z.add_0_r. destruct (ex ++ rest) as [|c r]; [reflexivity|]. cbn in X2. now rewrite X2.
      - cbn [app]. rewrite Ascii.eqb_refl. now rewrite (digits_all i 0 _ NF X1). }
    unfold text in *. rewrite EF. clear EF. destruct (Nat.eqb_spec (m + length fp) 0) as [E0|_]; [exfalso; apply Ne; unfold m in E0; destruct ip; [destruct fp; [reflexivity|discriminate]|discriminate]|].
    destruct HE as [(-> & ->)|(c & es & ds & esg & en & Hc & -> & ES & EN & Nd & ->)].
    + cbn [app]. replace (- Z.of_nat (length fp))%Z with (0 - Z.of_nat (length fp))%Z by lia. rewrite mantissa_value. destruct rest as [|c r]; [reflexivity|]. destruct HR as [HR|(c' & r' & E' & B)]; [discriminate|]. injection E' as <- <-. destruct (blank_chars B) as (_ & _ & EE). unfold is_exp in EE. rewrite EE. reflexivity.
    + cbn [app]. replace (Ascii.eqb c "e" || Ascii.eqb c "E") with true by (destruct Hc as [-> | ->]; reflexivity). rewrite <- app_assoc.
      assert (HG2 : heads is_sign (ds ++ rest)) by (apply (number_heads _ _ EN digit_not_sign); intro; contradiction). rewrite (sign_of_spec _ ES HG2), (digits_all 0 0 _ EN (rest_stops HR)). cbn [Nat.add Z.mul Z.add]. destruct (Nat.eqb_spec (length ds) 0) as [E0|_]; [destruct ds; [congruence|discriminate]|]. now rewrite mantissa_value.
  - intros w Hw. unfold get_real. rewrite blanks_skip by assumption. reflexivity.
  - intros r. reflexivity.
  - intros w c r Hw Hc. destruct (letter_chars _ Hc) as (E1 & E2 & E3 & E4). unfold get_real. rewrite skip_blanks by assumption. cbn [skip_spaces]. rewrite E1, sign_of_other by assumption. cbn [digits]. rewrite E3. cbn. rewrite E4. reflexivity.
  - intros s v r. unfold get_real. pose proof (skip_spaces_shrinks s) as L1. pose proof (sign_of_shrinks (skip_spaces s)) as L2. destruct (sign_of (skip_spaces s)) as (sg, s1). cbn [snd] in L2. pose proof (digits_shrinks s1 0 0) as L3. destruct (digits 0 0 s1) as ((a, n), s2).
    set (q := match s2 with c :: s2' => if Ascii.eqb c "."%char then digits a 0 s2' else (a, O, s2) | [] => (a, O, s2) end). assert (L4 : (length (snd q) + snd (fst q) <= length s2)%nat).
    { unfold q. destruct s2 as [|c s2]; [cbn; lia|]. destruct (Ascii.eqb c "."); [|cbn; lia]. pose proof (digits_shrinks s2 a 0) as L. destruct (digits a 0 s2) as ((x, y), z). cbn. lia. }
    destruct q as ((m2, n2), s3). cbn [fst snd] in L4. destruct (Nat.eqb_spec (n + n2) 0); [discriminate|].
    destruct s3 as [|c s4]; [intro E; injection E as <- <-; cbn; lia|]. destruct (_ || _).
    + pose proof (sign_of_shrinks s4) as L5. destruct (sign_of s4) as (eg, s5). cbn [snd] in L5. pose proof (digits_shrinks s5 0 0) as L6. destruct (digits 0 0 s5) as ((x, y), z). destruct (y =? 0)%nat; [discriminate|]. intro E. injection E as <- <-. cbn in L4. lia.
    + intro E. injection E as <- <-. lia.
  - intros t v (s & ip & f & fp & ex & sg & i & n & e & -> & S1 & NI & F & NF & Ne & HE & _).
    assert (ND : forall ds k, number ds k -> ~ In "010"%char ds) by (intros ds k N Hin; destruct (number_in N _ Hin) as (d & D); now destruct (is_digit_cases D) as (_ & _ & _ & _ & N0)).
    assert (NS : forall x k, sign x k -> ~ In "010"%char x) by (intros x k H Hin; destruct H; cbn in Hin; try contradiction; destruct Hin as [Hin|[]]; discriminate).
    rewrite !in_app_iff. intros [H|[H|[H|H]]].
    + exact (NS _ _ S1 H).
    + exact (ND _ _ NI H).
    + destruct F as [(-> & _)| ->]; [contradiction|]. destruct H as [H|H]; [discriminate|exact (ND _ _ NF H)].
    + destruct HE as [(-> & _)|(c & es & ds & esg & en & Hc & -> & ES & EN & _)]; [contradiction|]. destruct H as [H|H]; [destruct Hc; congruence|]. apply in_app_or in H. destruct H as [H|H]; [exact (NS _ _ ES H)|exact (ND _ _ EN H)].
Qed.
