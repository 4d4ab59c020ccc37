(** The Cholesky factorisation and back substitution. *)
From Coq Require Import Reals Lra.
From Verif Require Import Base Common_Model KDReal_Proofs Impurity_Model Impurity_Spec Impurity_Proofs Vec MathFun_Model Stats_Model Stats_Spec Stats_Proofs LossSoftmax_Proofs
  Linear_Model LinSolve_Proofs Linear_Proofs Decomp_Model Decomp_Spec Decomp_Proofs DecompPca_Proofs Gmm_Model.
Local Open Scope R_scope.
Set Implicit Arguments.

Lemma zeros_scale n : zeros n = vscale 0 (zeros n).
Proof. unfold vscale, zeros. induction n; cbn; [auto|]. f_equal; [ring|auto]. Qed.
Lemma total_minus {A} (f g : A -> R) l : total (map (fun x => f x - g x) l) = total (map f l) - total (map g l).
Proof. induction l as [|x l IH]; cbn; [ring|]. unfold total in IH. rewrite IH. ring. Qed.
(** U times a vector, for the packed rows of an upper triangular matrix. *)
Fixpoint umul (U : list (list R)) (z : list R) : list R := match U with [] => [] | r :: U' => dot r z :: umul U' (tl z) end.
Fixpoint packed (d : nat) (U : list (list R)) : Prop :=
  match d, U with
  | O, [] => True
  | S d', (l :: t) :: U' => 0 < l /\ length t = d' /\ packed d' U'
  | _, _ => False
  end.
Definition square (d : nat) (A : list (list R)) : Prop := length A = d /\ width d A.
Definition bsym (d : nat) (A : list (list R)) : Prop := forall z w, length z = d -> length w = d -> dot z (apply A w) = dot w (apply A z).
Definition bpos (d : nat) (A : list (list R)) : Prop := forall z, length z = d -> (exists a, In a z /\ a <> 0) -> 0 < dot z (apply A z).

Lemma packed_length d : forall U, packed d U -> length U = d.
Proof. induction d as [|d IH]; intros [|[|l t] U] H; cbn in *; try easy. f_equal. now apply IH. Qed.
Lemma umul_length U : forall z, length (umul U z) = length U.
Proof. induction U as [|r U IH]; intro z; cbn; [auto|]. now rewrite IH. Qed.
Lemma umul_vadd d : forall U z w, packed d U -> length z = d -> length w = d -> umul U (vadd z w) = vadd (umul U z) (umul U w).
Proof.
  induction d as [|d IH]; intros [|[|l t] U] [|a z] [|b w] H Lz Lw; cbn in H, Lz, Lw; try easy. destruct H as (_ & Lt & H). change (vadd (a :: z) (b :: w)) with (a + b :: vadd z w).
  cbn [umul tl]. change (vadd (?x :: ?u) (?y :: ?v)) with (x + y :: vadd u v). rewrite IH by (auto; lia). f_equal. rewrite !dot_cons. rewrite dot_vadd_r by lia. ring.
Qed.
Lemma umul_vscale c U : forall z, umul U (vscale c z) = vscale c (umul U z).
Proof. induction U as [|r U IH]; intro z; [reflexivity|]. cbn [umul]. change (vscale c (?x :: ?u)) with (c * x :: vscale c u). rewrite dot_vscale_r. f_equal. rewrite <- IH. now destruct z. Qed.
Lemma back_solve_length d : forall U b, packed d U -> length b = d -> length (back_solve U b) = d.
Proof. induction d as [|d IH]; intros [|[|l t] U] [|v b] H L; cbn in *; try easy. f_equal. apply IH; [apply H|lia]. Qed.
Lemma umul_back_solve d : forall U b, packed d U -> length b = d -> umul U (back_solve U b) = b.
Proof.
  induction d as [|d IH]; intros [|[|l t] U] [|v b] H L; cbn in H, L; try easy. destruct H as (Pl & Lt & H). cbn [back_solve umul tl]. rewrite IH by (auto; lia). rewrite dot_cons. f_equal. field. lra.
Qed.
Lemma umul_inj d : forall U z w, packed d U -> length z = d -> length w = d -> umul U z = umul U w -> z = w.
Proof.
  induction d as [|d IH]; intros [|[|l t] U] [|a z] [|b w] H Lz Lw E; cbn in H, Lz, Lw; try easy. destruct H as (Pl & Lt & H). cbn [umul tl] in E. injection E as E1 E2.
  assert (z = w) as -> by (apply (IH U); auto; lia). f_equal. rewrite !dot_cons in E1. apply Rmult_eq_reg_l with l; lra.
Qed.
Lemma back_solve_umul d U z : packed d U -> length z = d -> back_solve U (umul U z) = z.
Proof.
  intros H L. apply (@umul_inj d U); auto; [apply back_solve_length; auto; rewrite umul_length; now apply packed_length|]. apply (@umul_back_solve d); auto. rewrite umul_length. now apply packed_length.
Qed.

Lemma dot_basis d i v : (i < d)%nat -> length v = d -> dot (basis d i) v = nth i v 0.
Proof.
  intros Hi L. rewrite (@dot_nths d) by (auto using basis_length). rewrite <- (@total_kron d (fun j => nth j v 0) i) by auto. apply total_seq_ext. intros j Hj. rewrite nth_basis by auto. cbv beta. rewrite Nat.eqb_sym. destruct (i =? j)%nat; ring.
Qed.

(** * The factorisation *)
Lemma apply_cons_rows (rows : list (list R)) w0 w d : width (S d) rows -> apply rows (w0 :: w) = vadd (vscale w0 (map (hd 0) rows)) (apply (map (@tl R) rows) w).
Proof.
  intro W. induction rows as [|r rows IH]; [reflexivity|]. apply width_cons in W. destruct W as (L & W). cbn [apply map]. destruct r as [|a r]; [discriminate|]. change (vscale w0 (hd 0 (a :: r) :: ?u)) with (w0 * a :: vscale w0 u).
  cbn [tl]. change (vadd (?x :: ?u) (?y :: ?v)) with (x + y :: vadd u v). rewrite dot_cons. f_equal; [ring|]. exact (IH W).
Qed.
Definition schur (rows : list (list R)) (l : R) : list (list R) :=
  let below := map (fun r => hd 0 r / l) rows in map2 (fun r b => vsub (tl r) (vscale b below)) rows below.
Lemma width_tl d rows : width (S d) rows -> width d (map (@tl R) rows).
Proof. intros W r Hr. apply in_map_iff in Hr. destruct Hr as (x & <- & Hx). specialize (W x Hx). destruct x; cbn in *; lia. Qed.
Lemma schur_width d rows l : width (S d) rows -> length rows = d -> square d (schur rows l).
Proof.
  intros W L. unfold schur. set (below := map (fun r => hd 0 r / l) rows). assert (Lb : length below = d) by (unfold below; now rewrite map_length). split; [rewrite map2_length by lia; lia|]. clearbody below.
  assert (H : forall rs bs, width (S d) rs -> width d (map2 (fun r b => vsub (tl r) (vscale b below)) rs bs)).
  { induction rs as [|r rs IH]; intros [|b bs] Wr e He; cbn in He; try easy. apply width_cons in Wr. destruct Wr as (Lr & Wr). destruct He as [<-|He]; [|exact (IH bs Wr e He)].
    destruct r; [discriminate|]. cbn in Lr. cbn [tl]. rewrite vsub_length; rewrite ?vscale_length; lia. }
  now apply H.
Qed.
Lemma schur_apply d rows l w : width (S d) rows -> length rows = d -> length w = d ->
  let below := map (fun r => hd 0 r / l) rows in apply (schur rows l) w = vsub (apply (map (@tl R) rows) w) (vscale (dot below w) below).
Proof.
  intros W L Lw below. unfold schur. fold below. assert (Lb : length below = d) by (unfold below; now rewrite map_length).
  assert (H : forall rs, width (S d) rs -> apply (map2 (fun r b => vsub (tl r) (vscale b below)) rs (map (fun r => hd 0 r / l) rs)) w = vsub (apply (map (@tl R) rs) w) (vscale (dot below w) (map (fun r => hd 0 r / l) rs))).
  { induction rs as [|r rs IH]; intro Wr; [reflexivity|]. apply width_cons in Wr. destruct Wr as (Lr & Wr). cbn [map map2 apply]. change (vscale (dot below w) (?x :: ?u)) with (dot below w * x :: vscale (dot below w) u).
    change (vsub (?x :: ?u) (?y :: ?v)) with (x - y :: vsub u v). f_equal; [|exact (IH Wr)]. destruct r as [|a r]; [discriminate|]. cbn in Lr. cbn [tl hd]. rewrite dot_vsub_l by (rewrite vscale_length; lia). rewrite dot_vscale_l. ring. }
  now apply H.
Qed.
(** The form of A, in terms of its first pivot and of what remains. *)
Lemma form_split d a r0 rows z0 z w0 w : square (S d) ((a :: r0) :: rows) -> bsym (S d) ((a :: r0) :: rows) -> 0 < a -> length z = d -> length w = d ->
  let l := sqrt a in let below := map (fun r => hd 0 r / l) rows in
  dot (z0 :: z) (apply ((a :: r0) :: rows) (w0 :: w)) = dot (l :: below) (z0 :: z) * dot (l :: below) (w0 :: w) + dot z (apply (schur rows l) w).
Proof.
  intros (LA & W) S Pa Lz Lw l below. apply width_cons in W. destruct W as (L0 & W). cbn in LA, L0. assert (Pl : 0 < l) by (now apply sqrt_lt_R0). assert (Ll : l * l = a) by (apply sqrt_sqrt; lra).
  assert (E0 : map (hd 0) rows = vscale l below). { unfold below, vscale. rewrite map_map. apply map_ext. intro r. field. lra. }
  assert (Lb : length below = d) by (unfold below; rewrite map_length; lia).
  assert (E1 : r0 = vscale l below).
  { apply (@list_ext d); [lia|rewrite vscale_length; auto|]. intros i Hi. rewrite <- E0. specialize (S (1 :: zeros d) (0 :: basis d i) ltac:(cbn; now rewrite zeros_length) ltac:(cbn; now rewrite basis_length)).
    cbn [apply map] in S. rewrite !dot_cons in S. rewrite dot_zeros_l in S. rewrite (dot_comm r0 (zeros d)), dot_zeros_l in S. fold (apply rows (1 :: zeros d)) in S. rewrite (@apply_cons_rows rows 1 (zeros d) d) in S by auto.
    rewrite dot_vadd_r in S by (unfold apply; now rewrite vscale_length, !map_length). rewrite dot_vscale_r in S.
    assert (Z : apply (map (@tl R) rows) (zeros d) = zeros (length rows)). { unfold apply. rewrite map_map. rewrite <- (map_length (fun r => dot (tl r) (zeros d)) rows). apply zeros_of. intros b Hb. apply in_map_iff in Hb. destruct Hb as (r & <- & _). rewrite dot_comm. apply dot_zeros_l. }
    rewrite Z, (dot_comm (basis d i) (zeros _)), dot_zeros_l in S. rewrite (dot_comm r0 (basis d i)) in S. rewrite !dot_basis in S by (rewrite ?map_length; lia). lra. }
  cbn [apply map]. fold (apply rows (w0 :: w)). rewrite (@apply_cons_rows rows w0 w d) by auto. rewrite !dot_cons. rewrite dot_vadd_r by (unfold apply; rewrite vscale_length, !map_length; auto). rewrite dot_vscale_r, E0, E1, dot_vscale_r, dot_vscale_l.
  rewrite (@schur_apply d) by (auto; lia). fold below. rewrite dot_vsub_r by (unfold apply; rewrite vscale_length, !map_length; lia). rewrite dot_vscale_r, (dot_comm below z), <- Ll. ring.
Qed.
Lemma schur_bsym d a r0 rows : square (S d) ((a :: r0) :: rows) -> bsym (S d) ((a :: r0) :: rows) -> 0 < a -> bsym d (schur rows (sqrt a)).
Proof.
  intros Q B Pa z w Lz Lw. pose proof (form_split 0 z 0 w Q B Pa Lz Lw) as E1. pose proof (form_split 0 w 0 z Q B Pa Lw Lz) as E2. cbv zeta in E1, E2. rewrite (B (0 :: z) (0 :: w)) in E1 by (cbn; lia). lra.
Qed.
(** The factor is upper triangular with a positive diagonal, and A = U^T U. *)
Lemma chol_sound d : forall A U, square d A -> bsym d A -> chol d A = Some U -> packed d U /\ forall z w, length z = d -> length w = d -> dot z (apply A w) = dot (umul U z) (umul U w).
Proof.
  induction d as [|d IH]; intros A U Q B E.
  - cbn in E. injection E as <-. split; [exact I|]. intros [|] [|]; try discriminate. intros _ _. reflexivity.
  - cbn [chol] in E. destruct A as [|[|a r0] rows]; try discriminate. destruct (Rltb 0 a) eqn:Pa; [|discriminate]. apply Rltb_true in Pa. cbv zeta in E. fold (schur rows (sqrt a)) in E.
    destruct (chol d (schur rows (sqrt a))) as [L|] eqn:EL; [|discriminate]. injection E as <-. assert (Q' := Q). destruct Q' as (LA & W). cbn in LA. apply width_cons in W. destruct W as (L0 & W).
    destruct (IH _ _ (@schur_width d rows (sqrt a) W ltac:(lia)) (schur_bsym Q B Pa) EL) as (PL & F). split.
    + cbn [packed]. split; [now apply sqrt_lt_R0|]. split; [rewrite map_length; lia|auto].
    + intros [|z0 z] [|w0 w] Lz Lw; try discriminate. cbn in Lz, Lw. rewrite (@form_split d a r0 rows z0 z w0 w Q B Pa) by lia. cbv zeta. cbn [umul tl]. rewrite dot_cons. rewrite F by lia. reflexivity.
Qed.
Lemma umul_zero d U z : packed d U -> length z = d -> (exists a, In a z /\ a <> 0) -> 0 < sqn (umul U z).
Proof.
  intros P L (a & Ha & Na). pose proof (sqn_nonneg (umul U z)) as [H|H]; [auto|]. exfalso. symmetry in H. pose proof (proj1 (sqn_zero _) H) as Hz.
  assert (E : umul U z = umul U (zeros d)).
  { assert (Z : forall v n, (forall b, In b v -> b = 0) -> length v = n -> v = zeros n) by (intros v n Hv <-; now apply zeros_of).
    pose proof (zeros_scale d) as Z0.
    transitivity (zeros d); [apply Z; [auto|rewrite umul_length; now apply packed_length]|]. rewrite Z0 at 2. rewrite umul_vscale. symmetry. apply Z; [|rewrite vscale_length, umul_length; now apply packed_length].
    intros b Hb. apply in_map_iff in Hb. destruct Hb as (c & <- & _). ring. }
  apply (@umul_inj d) in E; auto using zeros_length. subst z. apply Na. unfold zeros in Ha. now apply repeat_spec in Ha.
Qed.
Lemma chol_posdef d A U : square d A -> bsym d A -> chol d A = Some U -> bpos d A.
Proof. intros Q B E z Lz Nz. destruct (chol_sound Q B E) as (P & F). rewrite F by auto. now apply (@umul_zero d). Qed.
Lemma chol_complete d : forall A, square d A -> bsym d A -> bpos d A -> exists U, chol d A = Some U.
Proof.
  induction d as [|d IH]; intros A Q B P; [cbn; eauto|]. cbn [chol]. assert (Q' := Q). destruct Q' as (LA & W). destruct A as [|[|a r0] rows]; [discriminate|specialize (W [] (or_introl eq_refl)); discriminate|].
  cbn in LA. apply width_cons in W. destruct W as (L0 & W).
  assert (Pa : 0 < a).
  { specialize (P (1 :: zeros d) ltac:(cbn; now rewrite zeros_length) (ex_intro _ 1 (conj (or_introl eq_refl) R1_neq_R0))). cbn [apply map] in P. rewrite !dot_cons, dot_zeros_l, (dot_comm r0), dot_zeros_l in P. lra. }
  assert (T : Rltb 0 a = true) by (now apply Rltb_true). rewrite T. cbv zeta. fold (schur rows (sqrt a)).
  destruct (IH (schur rows (sqrt a)) (@schur_width d rows (sqrt a) W ltac:(lia)) (schur_bsym Q B Pa)) as (L & ->); [|eauto].
  intros z Lz (b & Hb & Nb). set (l := sqrt a). assert (Pl : 0 < l) by (now apply sqrt_lt_R0). set (below := map (fun r => hd 0 r / l) rows). set (z0 := - dot below z / l).
  pose proof (@form_split d a r0 rows z0 z z0 z Q B Pa Lz Lz) as E. cbv zeta in E. fold l below in E. rewrite !dot_cons in E. replace (l * z0 + dot below z) with 0 in E by (unfold z0; field; lra).
  rewrite Rmult_0_l, Rplus_0_l in E. rewrite <- E. apply P; [cbn; lia|]. exists b. split; [now right|auto].
Qed.

(** * The inverse factor *)
Section Factor.
  Variables (d : nat) (A U : list (list R)).
  Hypothesis Q : square d A.
  Hypothesis B : bsym d A.
  Hypothesis E : chol d A = Some U.
  Let P := map (fun j => back_solve U (basis d j)) (seq 0 d).
  Lemma factor_packed : packed d U.
  Proof. apply (chol_sound Q B E). Qed.
  Lemma factor_form z w : length z = d -> length w = d -> dot z (apply A w) = dot (umul U z) (umul U w).
  Proof. apply (chol_sound Q B E). Qed.
  Lemma factor_length : length P = d.
  Proof. unfold P. now rewrite map_length, seq_length. Qed.
  Lemma factor_nth j : (j < d)%nat -> nth j P [] = back_solve U (basis d j).
  Proof. intro H. unfold P. now rewrite nth_seq_map. Qed.
  Lemma factor_width : width d P.
  Proof. intros c Hc. unfold P in Hc. apply in_map_iff in Hc. destruct Hc as (j & <- & _). apply back_solve_length; [apply factor_packed|apply basis_length]. Qed.
  Lemma factor_umul j : (j < d)%nat -> umul U (nth j P []) = basis d j.
  Proof. intro H. rewrite factor_nth by auto. apply (@umul_back_solve d); [apply factor_packed|apply basis_length]. Qed.
  Lemma umul_vsum vs : width d vs -> umul U (vsum d vs) = vsum d (map (umul U) vs).
  Proof.
    induction vs as [|v vs IH]; intro W; cbn [vsum fold_right map].
    - pose proof (zeros_scale d) as Z0. rewrite Z0 at 1. rewrite umul_vscale.
      transitivity (zeros (length (vscale 0 (umul U (zeros d))))); [|now rewrite vscale_length, umul_length, (packed_length _ _ factor_packed)]. apply zeros_of. intros b Hb. apply in_map_iff in Hb. destruct Hb as (c & <- & _). ring.
    - apply width_cons in W. destruct W as (L & W). fold (vsum d vs). rewrite (@umul_vadd d) by (auto using factor_packed, vsum_length). fold (vsum d (map (umul U) vs)). rewrite IH by auto. reflexivity.
  Qed.
  Lemma comb_basis c : comb d c (map (basis d) (seq 0 d)) = map c (seq 0 d).
  Proof.
    apply (@list_ext d); [apply comb_length; intros x Hx; apply in_map_iff in Hx; destruct Hx as (j & <- & _); apply basis_length|now rewrite map_length, seq_length|]. intros i Hi.
    rewrite nth_comb by (intros x Hx; apply in_map_iff in Hx; destruct Hx as (j & <- & _); apply basis_length). rewrite map_length, seq_length, nth_seq_map by auto.
    rewrite <- (@total_kron d c i) by auto. apply total_seq_ext. intros j Hj. rewrite nth_seq_map, nth_basis by auto. reflexivity.
  Qed.
  Lemma factor_comb c : umul U (comb d c P) = map c (seq 0 d).
  Proof.
    unfold comb. rewrite umul_vsum. 2: { intros x Hx. apply in_map_iff in Hx. destruct Hx as (j & <- & Hj). apply in_seq in Hj. rewrite vscale_length. apply nth_width; [apply factor_width|lia]. }
    rewrite factor_length, map_map. rewrite <- comb_basis. unfold comb. rewrite map_length, seq_length. f_equal. apply map_ext_in. intros j Hj. apply in_seq in Hj. rewrite umul_vscale, factor_umul by lia. now rewrite nth_seq_map by lia.
  Qed.
  Lemma back_solve_comb b : length b = d -> back_solve U b = comb d (fun j => nth j b 0) P.
  Proof.
    intro L. apply (@umul_inj d U); [apply factor_packed|apply back_solve_length; auto using factor_packed|apply comb_length, factor_width|]. rewrite (@umul_back_solve d) by (auto using factor_packed). rewrite factor_comb. rewrite <- L. apply list_as_nths.
  Qed.
  Definition whiten (x : list R) : list R := map (fun c => dot x c) P.
  Lemma whiten_length x : length (whiten x) = d.
  Proof. unfold whiten. rewrite map_length. apply factor_length. Qed.
  Lemma nth_whiten x j : (j < d)%nat -> nth j (whiten x) 0 = dot x (nth j P []).
  Proof. intro H. unfold whiten. rewrite (nth_indep _ 0 (dot x [])) by (rewrite map_length, factor_length; auto). apply map_nth. Qed.
  Lemma whiten_umul x z : length x = d -> length z = d -> dot (whiten x) (umul U z) = dot x z.
  Proof.
    intros Lx Lz. rewrite (@dot_nths d) by (auto using whiten_length; rewrite umul_length; apply packed_length, factor_packed). transitivity (dot x (back_solve U (umul U z))); [|now rewrite (@back_solve_umul d) by (auto using factor_packed)].
    rewrite back_solve_comb by (rewrite umul_length; apply packed_length, factor_packed). rewrite dot_comm, dot_comb by apply factor_width. rewrite factor_length. apply total_seq_ext. intros j Hj. rewrite nth_whiten by auto. rewrite (dot_comm x). ring.
  Qed.
  Lemma apply_square w : length (apply A w) = d.
  Proof. unfold apply. rewrite map_length. apply Q. Qed.
  Lemma dot_ext_eq u v : length u = d -> length v = d -> (forall w, length w = d -> dot w u = dot w v) -> u = v.
  Proof. intros Lu Lv H. apply (@list_ext d); auto. intros i Hi. rewrite <- (@dot_basis d i u), <- (@dot_basis d i v) by auto. apply H, basis_length. Qed.
  Lemma outer_apply x : length x = d -> apply (outer d P) x = back_solve U (whiten x).
  Proof.
    intro Lx. rewrite back_solve_comb by apply whiten_length. apply (@list_ext d); [unfold apply, outer; now rewrite !map_length, seq_length|apply comb_length, factor_width|]. intros a Ha.
    rewrite nth_comb by apply factor_width. rewrite factor_length. unfold apply, outer. rewrite map_map, nth_seq_map by auto.
    rewrite (@dot_nths d) by (rewrite ?map_length, ?seq_length; auto). rewrite (total_seq_ext _ (fun b => total (map (fun c => nth a c 0 * nth b c 0 * nth b x 0) P))).
    2: { intros b Hb. rewrite nth_seq_map by auto. rewrite Rsum_total. now rewrite <- total_scal_r. }
    rewrite total_swap. rewrite (total_rows [] _ P), factor_length. apply total_seq_ext. intros j Hj. rewrite nth_whiten by auto. rewrite (@dot_nths d x) by solve [auto | apply nth_width; [apply factor_width|now rewrite factor_length]].
    rewrite (total_seq_ext _ (fun b => (nth b x 0 * nth b (nth j P []) 0) * nth a (nth j P []) 0)) by (intros; ring). apply total_scal_r.
  Qed.
  Lemma outer_apply_length x : length (apply (outer d P) x) = d.
  Proof. unfold apply, outer. now rewrite !map_length, seq_length. Qed.
  Lemma outer_inverse z : length z = d -> apply A (apply (outer d P) z) = z /\ apply (outer d P) (apply A z) = z.
  Proof.
    intro Lz. assert (H : forall x, length x = d -> apply A (apply (outer d P) x) = x).
    { intros x Lx. apply dot_ext_eq; auto using apply_square. intros w Lw. rewrite outer_apply by auto. rewrite factor_form by solve [auto | apply back_solve_length; [apply factor_packed|apply whiten_length]].
      rewrite (@umul_back_solve d) by (auto using factor_packed, whiten_length). rewrite dot_comm, whiten_umul by auto. apply dot_comm. }
    split; [auto|]. apply (@umul_inj d U); auto using factor_packed, outer_apply_length. pose proof (H (apply A z) (apply_square z)) as H1.
    set (y := apply (outer d P) (apply A z)) in *. assert (Ly : length y = d) by apply outer_apply_length. apply vsub_self_zero; [now rewrite !umul_length|].
    assert (F : forall w, length w = d -> dot (umul U w) (umul U y) = dot (umul U w) (umul U z)) by (intros w Lw; rewrite <- !factor_form by auto; now rewrite H1).
    rewrite sqn_vsub by (now rewrite !umul_length). unfold sqn. rewrite (F y) by auto. rewrite (dot_comm (umul U y)), (F z) by auto. ring.
  Qed.
  Lemma whiten_sqn x : length x = d -> sqn (whiten x) = dot x (apply (outer d P) x).
  Proof. intro Lx. rewrite outer_apply by auto. rewrite <- whiten_umul by solve [auto | apply back_solve_length; [apply factor_packed|apply whiten_length]]. now rewrite (@umul_back_solve d) by (auto using factor_packed, whiten_length). Qed.
  Lemma outer_shape : shape d d (outer d P).
  Proof. split; [unfold outer; now rewrite map_length, seq_length|]. intros r Hr. unfold outer in Hr. apply in_map_iff in Hr. destruct Hr as (a & <- & _). now rewrite map_length, seq_length. Qed.
  Lemma outer_symmetric : forall i j, (i < d)%nat -> (j < d)%nat -> entry (outer d P) i j = entry (outer d P) j i.
  Proof. intros i j Hi Hj. unfold entry, outer. rewrite !nth_seq_map by auto. rewrite !Rsum_total. apply total_ext. intros; ring. Qed.
  (** each column of the factor has norm 1 for A *)
  Lemma factor_unit j : (j < d)%nat -> dot (nth j P []) (apply A (nth j P [])) = 1.
  Proof.
    intro Hj. rewrite factor_form by (apply nth_width; [apply factor_width|now rewrite factor_length]). rewrite factor_umul by auto. rewrite dot_basis by (auto using basis_length). rewrite nth_basis by auto. now rewrite Nat.eqb_refl.
  Qed.
End Factor.
(** * The triangular shape *)
Definition udiag (U : list (list R)) (j : nat) : R := hd 0 (nth j U []).
Lemma udiag_pos d : forall U j, packed d U -> (j < d)%nat -> 0 < udiag U j.
Proof. induction d as [|d IH]; intros [|[|l t] U] j H L; cbn in H; try easy; try lia. destruct H as (Pl & Lt & H). destruct j as [|j]; [exact Pl|]. apply (IH U j); [auto|lia]. Qed.
Lemma back_solve_tail d : forall U b j, packed d U -> length b = d -> (forall i, (j < i)%nat -> nth i b 0 = 0) ->
  (forall i, (j < i)%nat -> nth i (back_solve U b) 0 = 0) /\ ((j < d)%nat -> nth j (back_solve U b) 0 = nth j b 0 / udiag U j).
Proof.
  induction d as [|d IH]; intros [|[|l t] U] [|v b] j H L Z; cbn in H, L; try contradiction; try discriminate.
  - split; [|intro; lia]. intros [|i] _; reflexivity.
  - destruct H as (Pl & Lt & H). cbn [back_solve]. destruct j as [|j].
    + assert (N : forall a, In a (back_solve U b) -> a = 0).
      { assert (Zb : forall i, nth i b 0 = 0) by (intro i; exact (Z (S i) ltac:(lia))). assert (Eb : b = zeros d) by (rewrite (zeros_of b); [f_equal; lia|]; intros a Ha; apply In_nth with (d := 0) in Ha; destruct Ha as (i & _ & <-); auto).
        assert (Es : back_solve U b = zeros d). 2: { intros a Ha. rewrite Es in Ha. unfold zeros in Ha. now apply repeat_spec in Ha. }
        apply (@umul_inj d U); auto using zeros_length; [apply back_solve_length; auto; lia|]. rewrite (@umul_back_solve d) by (auto; lia). rewrite Eb.
        rewrite (zeros_scale d) at 2. rewrite umul_vscale. symmetry. transitivity (zeros (length (vscale 0 (umul U (zeros d))))); [|now rewrite vscale_length, umul_length, (packed_length _ _ H)]. apply zeros_of. intros a Ha. apply in_map_iff in Ha. destruct Ha as (c & <- & _). ring. }
      split.
      * intros [|i] Hi; [lia|]. cbn [nth]. destruct (Nat.lt_ge_cases i (length (back_solve U b))) as [Hl|Hl]; [apply N, nth_In; auto|now apply nth_overflow].
      * intros _. cbn [nth]. unfold udiag. cbn [nth hd]. f_equal. assert (D : dot t (back_solve U b) = 0); [|rewrite D; ring]. rewrite (zeros_of _ N), dot_comm. apply dot_zeros_l.
    + destruct (IH U b j H ltac:(lia)) as (I1 & I2); [intros i Hi; exact (Z (S i) ltac:(lia))|]. split.
      * intros [|i] Hi; [lia|]. apply I1. lia.
      * intro Hj. apply I2. lia.
Qed.
Lemma umul_tail d : forall U z j, packed d U -> length z = d -> (j < d)%nat -> (forall i, (j < i)%nat -> nth i z 0 = 0) -> nth j (umul U z) 0 = udiag U j * nth j z 0.
Proof.
  induction d as [|d IH]; intros [|[|l t] U] [|a z] j H L Hj Z; cbn in H, L; try easy; try lia. destruct H as (Pl & Lt & H). cbn [umul tl]. destruct j as [|j].
  - cbn [nth]. unfold udiag. cbn [nth hd]. rewrite dot_cons. assert (D : dot t z = 0); [|rewrite D; ring]. rewrite (zeros_of z); [rewrite dot_comm; apply dot_zeros_l|]. intros b Hb. apply In_nth with (d := 0) in Hb. destruct Hb as (i & _ & <-). exact (Z (S i) ltac:(lia)).
  - cbn [nth]. apply (IH U z j); auto; try lia. intros i Hi. exact (Z (S i) ltac:(lia)).
Qed.
Lemma nth_le_sqn v j : (j < length v)%nat -> nth j v 0 ^ 2 <= sqn v.
Proof.
  intro H. rewrite sqn_sum. revert j H. induction v as [|a v IH]; intros j H; cbn in H; [lia|]. cbn [map]. unfold total. cbn [fold_right]. fold (total (map (fun a => a * a) v)).
  assert (0 <= total (map (fun a => a * a) v)) by (apply total_nonneg; intros; nra). destruct j as [|j]; cbn [nth]; [lra|]. specialize (IH j ltac:(lia)). nra.
Qed.
Lemma ln_le_minus x : 0 < x -> ln x <= x - 1.
Proof. intro H. pose proof (exp_ineq1_le (ln x)) as E. rewrite exp_ln in E by auto. lra. Qed.
(** tr(P^T S P) - log det (P^T S P) >= d, for the factors P of the inverse of A, and S. *)
Lemma trace_bound d A U S V : square d A -> bsym d A -> chol d A = Some U -> square d S -> bsym d S -> chol d S = Some V ->
  let P := map (fun j => back_solve U (basis d j)) (seq 0 d) in
  INR d + 2 * (total (map (fun j => ln (udiag V j)) (seq 0 d)) - total (map (fun j => ln (udiag U j)) (seq 0 d))) <= total (map (fun c => dot c (apply S c)) P).
Proof.
  intros QA BA EA QS BS ES P. pose proof (factor_packed QA BA EA) as PU. pose proof (factor_packed QS BS ES) as PV. rewrite (total_rows [] _ P). assert (LP : length P = d) by (unfold P; now rewrite map_length, seq_length). rewrite LP.
  assert (D : INR d = total (map (fun _ : nat => 1) (seq 0 d))) by (rewrite total_const, seq_length; ring).
  rewrite D. rewrite <- total_minus, <- total_scal, <- total_plus. apply total_seq_le. intros j Hj.
  assert (Lc : length (nth j P []) = d) by (apply nth_width; [exact (factor_width QA BA EA)|unfold P; rewrite map_length, seq_length; auto]).
  rewrite (factor_form QS BS ES) by auto. fold (sqn (umul V (nth j P []))). eapply Rle_trans; [|apply nth_le_sqn with (j := j); rewrite umul_length, (packed_length _ _ PV); auto].
  assert (N : nth j P [] = back_solve U (basis d j)) by (unfold P; now rewrite nth_seq_map).
  destruct (@back_solve_tail d U (basis d j) j PU (basis_length d j)) as (T1 & T2); [intros i Hi; rewrite nth_basis by auto; destruct (Nat.eqb_spec i j); [lia|auto]|].
  rewrite (@umul_tail d) by (auto; rewrite N; auto). rewrite N, T2 by auto. rewrite nth_basis, Nat.eqb_refl by auto. pose proof (@udiag_pos d U j PU Hj) as Pu. pose proof (@udiag_pos d V j PV Hj) as Pv.
  set (u := udiag U j) in *. set (v := udiag V j) in *. assert (Pq : 0 < v * (1 / u)) by (apply Rmult_lt_0_compat; [auto|apply Rdiv_lt_0_compat; lra]).
  assert (L : ln (v * (1 / u)) = ln v - ln u). { replace (v * (1 / u)) with (v * / u) by (field; lra). rewrite ln_mult by (auto using Rinv_0_lt_compat). rewrite ln_Rinv by auto. ring. }
  rewrite <- L. pose proof (ln_le_minus (pow_lt _ 2 Pq)) as B. replace ((v * (1 / u)) ^ 2) with ((v * (1 / u)) * (v * (1 / u))) in * by ring. rewrite ln_mult in B by auto. lra.
Qed.
