(** Proofs about L-BFGS. *)
From Coq Require Import Reals Lra.
From Verif Require Import Base Common_Model RDR_Proofs KDReal_Proofs Vec Impurity_Spec Loss_Model Lbfgs_Model LineSearch_Spec LineSearch_Proofs OptimSteps_Proofs
  Shuffle_Proofs Lbfgs_Spec.
Local Open Scope R_scope.
Set Implicit Arguments.

(** * The operator *)
Lemma inverse_cons gamma s y ps v : inverse_hessian gamma ((s, y) :: ps) v = bfgs_update s y (inverse_hessian gamma ps) v.
Proof. reflexivity. Qed.
Section Operator.
  Variable n : nat.
  Definition pair_ok (p : list R * list R) : Prop := length (fst p) = n /\ length (snd p) = n.

  Lemma update_length s y H v : length s = n -> length y = n -> length v = n -> (forall u, length u = n -> length (H u) = n) ->
    length (bfgs_update s y H v) = n.
  Proof.
    intros Ls Ly Lv LH. unfold bfgs_update. assert (length (vsub v (vscale (/ dot y s * dot s v) y)) = n) as L by (rewrite vsub_length; rewrite ?vscale_length; congruence).
    rewrite vadd_length; rewrite vsub_length; rewrite ?vscale_length; rewrite ?LH; auto; congruence.
  Qed.
  Lemma inverse_length gamma ps : (forall p, In p ps -> pair_ok p) -> forall v, length v = n -> length (inverse_hessian gamma ps v) = n.
  Proof.
    induction ps as [|[s y] ps IH]; intros HP v Lv; [cbn; rewrite vscale_length; auto|]. destruct (HP (s, y)) as (L1 & L2); [now left|]. cbn in L1, L2.
    rewrite inverse_cons. apply update_length; auto. intros u Lu. apply IH; auto. intros p Hp. apply HP. now right.
  Qed.

  (** Symmetry. *)
  Lemma update_sym s y H : length s = n -> length y = n -> (forall u, length u = n -> length (H u) = n) ->
    (forall u v, length u = n -> length v = n -> dot u (H v) = dot (H u) v) ->
    forall u v, length u = n -> length v = n -> dot u (bfgs_update s y H v) = dot (bfgs_update s y H u) v.
  Proof.
    intros Ls Ly LH SH u v Lu Lv. unfold bfgs_update. set (rho := / dot y s).
    set (u1 := vsub u (vscale (rho * dot s u) y)). set (v1 := vsub v (vscale (rho * dot s v) y)).
    assert (L1 : length u1 = n) by (unfold u1; rewrite vsub_length; rewrite ?vscale_length; congruence).
    assert (L2 : length v1 = n) by (unfold v1; rewrite vsub_length; rewrite ?vscale_length; congruence).
    pose proof (LH _ L1) as L3. pose proof (LH _ L2) as L4.
    rewrite dot_vadd_r by (rewrite vsub_length; rewrite ?vscale_length; congruence). rewrite dot_vsub_r by (rewrite vscale_length; congruence).
    rewrite dot_vadd_l by (rewrite vsub_length; rewrite ?vscale_length; congruence). rewrite dot_vsub_l by (rewrite vscale_length; congruence).
    rewrite !dot_vscale_r, !dot_vscale_l.
    assert (E1 : dot u1 (H v1) = dot u (H v1) - rho * dot s u * dot y (H v1)) by (unfold u1; rewrite dot_vsub_l, dot_vscale_l by (rewrite vscale_length; congruence); ring).
    assert (E2 : dot (H u1) v1 = dot (H u1) v - rho * dot s v * dot (H u1) y) by (unfold v1 at 1; rewrite dot_vsub_r, dot_vscale_r by (rewrite vscale_length; congruence); ring).
    pose proof (SH _ _ L1 L2) as E3. rewrite (dot_comm u s), (dot_comm (H u1) y) in *. lra.
  Qed.
  Lemma inverse_sym gamma ps : (forall p, In p ps -> pair_ok p) -> forall u v, length u = n -> length v = n ->
    dot u (inverse_hessian gamma ps v) = dot (inverse_hessian gamma ps u) v.
  Proof.
    induction ps as [|[s y] ps IH]; intros HP u v Lu Lv; [cbn [inverse_hessian fold_right]; now rewrite dot_vscale_r, dot_vscale_l|]. destruct (HP (s, y)) as (L1 & L2); [now left|]. cbn in L1, L2.
    assert (HP' : forall p, In p ps -> pair_ok p) by (intros p Hp; apply HP; now right).
    rewrite !inverse_cons. apply update_sym; auto; try (intros w Lw; now apply inverse_length); intros a b La Lb; now apply IH.
  Qed.

  (** Positive definiteness. *)
  Lemma dot_self_pos v : 0 < sqn v \/ (sqn v = 0).
  Proof. pose proof (sqn_nonneg v). lra. Qed.
  Lemma update_pos s y H : length s = n -> length y = n -> 0 < dot y s -> (forall u, length u = n -> length (H u) = n) ->
    (forall v, length v = n -> 0 <= dot v (H v)) -> (forall v, length v = n -> sqn v <> 0 -> 0 < dot v (H v)) ->
    forall v, length v = n -> 0 <= dot v (bfgs_update s y H v) /\ (sqn v <> 0 -> 0 < dot v (bfgs_update s y H v)).
  Proof.
    intros Ls Ly Hys LH H0 H1 v Lv. unfold bfgs_update. set (rho := / dot y s). assert (Hr : 0 < rho) by (apply Rinv_0_lt_compat; auto).
    set (v1 := vsub v (vscale (rho * dot s v) y)).
    assert (L2 : length v1 = n) by (unfold v1; rewrite vsub_length; rewrite ?vscale_length; congruence). pose proof (LH _ L2) as L4.
    rewrite dot_vadd_r by (rewrite vsub_length; rewrite ?vscale_length; congruence). rewrite dot_vsub_r by (rewrite vscale_length; congruence). rewrite !dot_vscale_r.
    assert (E : dot v1 (H v1) = dot v (H v1) - rho * dot s v * dot y (H v1)) by (unfold v1 at 1; rewrite dot_vsub_l, dot_vscale_l by (rewrite vscale_length; congruence); ring).
    replace (dot v (H v1) - rho * dot y (H v1) * dot v s + rho * dot s v * dot v s) with (dot v1 (H v1) + rho * (dot s v * dot s v)).
    2: { rewrite E, (dot_comm v s). ring. }
    assert (0 <= rho * (dot s v * dot s v)) by (apply Rmult_le_pos; [lra|apply Rle_0_sqr]). split; [pose proof (H0 _ L2); lra|]. intro N.
    destruct (Req_dec (dot s v) 0) as [Z|Z].
    - assert (v1 = v) as ->. { unfold v1. rewrite Z, Rmult_0_r. clear - Lv Ly. revert y Ly. revert Lv. revert n. induction v as [|a v IH]; intros n Lv [|b y] Ly; cbn in *; try (subst; discriminate); auto.
        unfold vsub in *. cbn. f_equal; [ring|]. eapply (IH (pred n)); lia. }
      pose proof (H1 _ Lv N). lra.
    - assert (0 < rho * (dot s v * dot s v)). { apply Rmult_lt_0_compat; auto. destruct (Rtotal_order (dot s v) 0) as [Q|[Q|Q]]; [nra|contradiction|nra]. }
      pose proof (H0 _ L2). lra.
  Qed.
  Lemma inverse_pos gamma ps : 0 < gamma -> (forall p, In p ps -> pair_ok p /\ 0 < dot (snd p) (fst p)) -> forall v, length v = n ->
    0 <= dot v (inverse_hessian gamma ps v) /\ (sqn v <> 0 -> 0 < dot v (inverse_hessian gamma ps v)).
  Proof.
    intros Hg. induction ps as [|[s y] ps IH]; intros HP v Lv.
    - cbn [inverse_hessian fold_right]. rewrite dot_vscale_r. fold (sqn v). pose proof (sqn_nonneg v). split; [nra|]. intro N. apply Rmult_lt_0_compat; auto. lra.
    - destruct (HP (s, y)) as ((L1 & L2) & Q); [now left|]. cbn in L1, L2, Q.
      assert (HP' : forall p, In p ps -> pair_ok p /\ 0 < dot (snd p) (fst p)) by (intros p Hp; apply HP; now right).
      rewrite inverse_cons. apply update_pos; auto.
      + intros u Lu. apply inverse_length; auto. intros p Hp. apply HP'; auto.
      + intros u Lu. apply IH; auto.
      + intros u Lu. apply IH; auto.
  Qed.

  (** The secant equation. *)
  Lemma vsub_cancel (v : list R) : vsub v v = zeros (length v).
  Proof. induction v as [|a v IH]; cbn; [auto|]. unfold vsub, zeros in *. f_equal; [ring|auto]. Qed.
  Lemma inverse_zeros gamma ps : (forall p, In p ps -> pair_ok p) -> inverse_hessian gamma ps (zeros n) = zeros n.
  Proof.
    assert (Z : forall c, vscale c (zeros n) = zeros n). { intro c. unfold vscale, zeros. clear. induction n as [|k IH]; cbn; auto. rewrite IH. f_equal. ring. }
    assert (S0 : forall k (v : list R), length v = k -> vscale 0 v = zeros k). { clear. intros k v. revert k. induction v as [|a v IH]; intros [|k] L; cbn in *; try discriminate; auto. rewrite (IH k) by lia. unfold zeros. cbn. f_equal. ring. }
    assert (D0 : vsub (zeros n) (zeros n) = zeros n) by (rewrite vsub_cancel, zeros_length; auto).
    assert (A0 : vadd (zeros n) (zeros n) = zeros n). { unfold vadd, zeros. clear. induction n as [|k IH]; cbn; auto. rewrite IH. f_equal. ring. }
    induction ps as [|[s y] ps IH]; intros HP; [cbn; auto|]. destruct (HP (s, y)) as (L1 & L2); [now left|]. cbn in L1, L2.
    rewrite inverse_cons. unfold bfgs_update. rewrite (dot_comm s (zeros n)), dot_zeros_l, Rmult_0_r, (S0 n y) by auto. rewrite D0.
    rewrite IH by (intros p Hp; apply HP; now right). rewrite (dot_comm y (zeros n)), dot_zeros_l, Rmult_0_r, (S0 n s), D0, A0 by auto. auto.
  Qed.
  Lemma inverse_secant gamma s y ps : pair_ok (s, y) -> (forall p, In p ps -> pair_ok p) -> dot y s <> 0 ->
    inverse_hessian gamma ((s, y) :: ps) y = s.
  Proof.
    intros (L1 & L2) HP N. cbn in L1, L2. rewrite inverse_cons. unfold bfgs_update. rewrite (dot_comm s y).
    replace (/ dot y s * dot y s) with 1 by (field; auto).
    assert (One : forall v : list R, vscale 1 v = v). { clear. intro v. unfold vscale. rewrite (map_ext (Rmult 1) (fun x => x)) by (intro; ring). apply map_id. }
    rewrite !One, vsub_cancel, L2, inverse_zeros by auto. rewrite (dot_comm y (zeros n)), dot_zeros_l, Rmult_0_r.
    clear - L1. revert n L1. induction s as [|a s IH]; intros [|k] L; cbn in *; try discriminate; auto. unfold vadd, vsub, zeros in *. cbn. rewrite IH by lia. f_equal. ring.
  Qed.
End Operator.

(** * The ring buffer *)
Section Ring.
  Variable m n : nat.
  Hypothesis Hm : (0 < m)%nat.
  Definition back (j : nat) : nat := ((j + m - 1) mod m)%nat.

  Lemma back_lt j : (back j < m)%nat.
  Proof. apply Nat.mod_upper_bound. lia. Qed.
  Lemma back_iter j i : (j < m)%nat -> (i <= m)%nat -> Nat.iter i back j = ((j + m - i) mod m)%nat.
  Proof.
    intros Hj. induction i as [|i IH]; intro Hi.
    - cbn. rewrite Nat.sub_0_r. rewrite <- Nat.add_mod_idemp_r, Nat.mod_same, Nat.add_0_r, Nat.mod_small by lia. auto.
    - cbn [Nat.iter nat_rect]. change (nat_rect (fun _ => nat) j (fun _ => back) i) with (Nat.iter i back j). rewrite IH by lia. unfold back.
      replace ((j + m - i) mod m + m - 1)%nat with ((j + m - i) mod m + (m - 1))%nat by lia. rewrite Nat.add_mod_idemp_l by lia.
      replace (j + m - i + (m - 1))%nat with (j + m - S i + 1 * m)%nat by lia. rewrite Nat.mod_add by lia. auto.
  Qed.
  Lemma back_iter_neq j i : (j < m)%nat -> (1 <= i < m)%nat -> Nat.iter i back j <> j.
  Proof.
    intros Hj Hi. rewrite back_iter by lia. intro E. destruct (Nat.lt_ge_cases j i) as [L|L].
    - rewrite Nat.mod_small in E by lia. lia.
    - replace (j + m - i)%nat with ((j - i) + 1 * m)%nat in E by lia. rewrite Nat.mod_add, Nat.mod_small in E by lia. lia.
  Qed.
  Lemma forth_back j : (j < m)%nat -> ((back j + 1) mod m)%nat = j.
  Proof.
    intro Hj. unfold back. rewrite Nat.add_mod_idemp_l by lia. replace (j + m - 1 + 1)%nat with (j + 1 * m)%nat by lia. rewrite Nat.mod_add, Nat.mod_small by lia. auto.
  Qed.
  Lemma back_forth j : (j < m)%nat -> back ((j + 1) mod m) = j.
  Proof.
    intro Hj. unfold back. replace ((j + 1) mod m + m - 1)%nat with ((j + 1) mod m + (m - 1))%nat by lia. rewrite Nat.add_mod_idemp_l by lia.
    replace (j + 1 + (m - 1))%nat with (j + 1 * m)%nat by lia. rewrite Nat.mod_add, Nat.mod_small by lia. auto.
  Qed.

  (** The i-th newest pair sits i + 1 places before [j]. *)
  Fixpoint ring (S Y : list (list R)) (YS : list R) (j : nat) (ps : list (list R * list R)) : Prop :=
    match ps with
    | [] => True
    | (s, y) :: ps' => vget S (back j) = Ok s /\ vget Y (back j) = Ok y /\ vget YS (back j) = Ok (dot y s) /\ ring S Y YS (back j) ps'
    end.

  Lemma vec_step (r s : list R) a b : length r = length s -> vadd r (vscale (a - b) s) = vadd (vsub r (vscale b s)) (vscale a s).
  Proof.
    revert s. induction r as [|x r IH]; intros [|z s] L; cbn in *; try discriminate; auto. unfold vadd, vsub in *. cbn. f_equal; [ring|]. apply IH. lia.
  Qed.
  Lemma vec_sub (d y : list R) a : length d = length y -> vadd d (vscale (- a) y) = vsub d (vscale a y).
  Proof. revert y. induction d as [|x d IH]; intros [|z y] L; cbn in *; try discriminate; auto. unfold vadd, vsub in *. cbn. f_equal; [ring|]. apply IH. lia. Qed.

  Lemma foldM_seq_any {A} (f : A -> nat -> outcome A) (Hf : forall a i j, f a i = f a j) k1 k2 c a : foldM f (seq k1 c) a = foldM f (seq k2 c) a.
  Proof. revert k1 k2 a. induction c as [|c IH]; intros k1 k2 a; cbn; auto. rewrite (Hf a k1 k2). destruct (f a k2); cbn; auto. Qed.

  Lemma two_loops S Y YS gamma ps : forall j d al k, (j < m)%nat -> (length ps <= m)%nat -> ring S Y YS j ps ->
    (forall p, In p ps -> pair_ok n p) -> length d = n ->
    exists j' q al', foldM (loop1 m S Y YS) (seq k (length ps)) (j, d, al) = Ok (j', q, al') /\ length q = n /\
      (forall key, (forall i, (1 <= i <= length ps)%nat -> key <> Nat.iter i back j) -> lookup_alpha al' key = lookup_alpha al key) /\
      forall k2, foldM (loop2 m S Y YS al') (seq k2 (length ps)) (j', vscale gamma q) = Ok (j, inverse_hessian gamma ps d).
  Proof.
    induction ps as [|[s y] ps IH]; intros j d al k Hj Hl HR HP Ld.
    - exists j, d, al. cbn. auto.
    - destruct HR as (R1 & R2 & R3 & R4). destruct (HP (s, y)) as (L1 & L2); [now left|]. cbn in L1, L2.
      assert (HP' : forall p, In p ps -> pair_ok n p) by (intros p Hp; apply HP; now right). cbn [length] in Hl.
      set (alpha := dot s d / dot y s). set (d1 := vadd d (vscale (- alpha) y)).
      assert (Ld1 : length d1 = n) by (unfold d1; rewrite vadd_length; rewrite ?vscale_length; congruence).
      destruct (IH (back j) d1 ((back j, alpha) :: al) (Datatypes.S k)) as (j' & q & al' & E1 & Lq & E2 & E3); auto; [apply back_lt|lia|].
      exists j', q, al'. split; [|split; [auto|split]].
      + cbn [length seq foldM]. unfold loop1 at 1. unfold modM. destruct (Nat.eqb_spec m 0); [lia|]. cbn [bind]. fold (back j).
        rewrite R1. cbn [bind]. rewrite R2. cbn [bind]. rewrite R3. cbn [bind]. rewrite dotM_Ok by congruence. cbn [bind].
        rewrite add_Ok by (rewrite vscale_length; congruence). cbn [bind]. exact E1.
      + intros key Hk. rewrite E2.
        * unfold lookup_alpha. cbn [find fst]. destruct (Nat.eqb_spec (back j) key) as [Z|Z]; auto. exfalso. apply (Hk 1%nat); [cbn; lia|]. cbn. auto.
        * intros i Hi. specialize (Hk (Datatypes.S i)). assert (Nat.iter (Datatypes.S i) back j = Nat.iter i back (back j)) as Z.
          { clear. induction i as [|i IH]; auto. change (Nat.iter (Datatypes.S (Datatypes.S i)) back j) with (back (Nat.iter (Datatypes.S i) back j)). rewrite IH. auto. }
          rewrite <- Z. apply Hk. cbn [length]. lia.
      + intro k2. cbn [length]. rewrite seq_S, foldM_app, E3. cbn [bind foldM]. set (r := inverse_hessian gamma ps d1).
        assert (Lr : length r = n) by (apply inverse_length; auto).
        unfold loop2 at 1. rewrite R1. cbn [bind]. rewrite R2. cbn [bind]. rewrite R3. cbn [bind]. rewrite dotM_Ok by congruence. cbn [bind].
        assert (LA : lookup_alpha al' (back j) = Ok alpha).
        { rewrite E2. - unfold lookup_alpha. cbn [find fst snd]. rewrite Nat.eqb_refl. auto.
          - intros i Hi. intro Z. symmetry in Z. revert Z. apply back_iter_neq; [apply back_lt|lia]. }
        rewrite LA. cbn [bind]. rewrite add_Ok by (rewrite vscale_length; congruence). cbn [bind]. unfold modM. destruct (Nat.eqb_spec m 0); [lia|]. cbn [bind].
        rewrite forth_back by auto. f_equal. f_equal. rewrite inverse_cons. unfold bfgs_update.
        assert (Ed : vsub d (vscale (/ dot y s * dot s d) y) = d1).
        { unfold d1. rewrite vec_sub by congruence. f_equal. f_equal. unfold alpha, Rdiv. ring. }
        rewrite Ed. fold r. replace (/ dot y s * dot s d) with alpha by (unfold alpha, Rdiv; ring). replace (/ dot y s * dot y r) with (dot y r / dot y s) by (unfold Rdiv; ring).
        apply vec_step. congruence.
  Qed.
  Lemma new_direction_spec S Y YS ps j ys yy g : (j < m)%nat -> (length ps <= m)%nat -> ring S Y YS j ps -> (forall p, In p ps -> pair_ok n p) -> length g = n ->
    new_direction m S Y YS (length ps) j ys yy g = Ok (inverse_hessian (ys / yy) ps (map Ropp g)).
  Proof.
    intros Hj Hl HR HP Lg. unfold new_direction. destruct (@two_loops S Y YS (ys / yy) ps j (map Ropp g) [] 0 Hj Hl HR HP) as (j' & q & al' & E1 & _ & _ & E2); [rewrite map_length; auto|].
    rewrite E1. cbn [bind]. rewrite E2. reflexivity.
  Qed.

  (** Storing a pair. *)
  Lemma ring_firstn S Y YS j ps k : ring S Y YS j ps -> ring S Y YS j (firstn k ps).
  Proof. revert j k. induction ps as [|[s y] ps IH]; intros j [|k] H; cbn; auto. destruct H as (A & B & C & D). auto. Qed.
  Lemma vget_set_other {A} (l : list A) i k v : i <> k -> vget (set_nth l k v) i = vget l i.
  Proof. intro N. unfold vget. rewrite set_nth_other; auto. Qed.
  Lemma vget_set_same {A} (l : list A) k v : (k < length l)%nat -> vget (set_nth l k v) k = Ok v.
  Proof. intro L. unfold vget. rewrite set_nth_same; auto. Qed.
  Lemma ring_frame S Y YS j ps k s y a : (forall i, (1 <= i <= length ps)%nat -> k <> Nat.iter i back j) -> ring S Y YS j ps ->
    ring (set_nth S k s) (set_nth Y k y) (set_nth YS k a) j ps.
  Proof.
    revert j. induction ps as [|[s' y'] ps IH]; intros j Hk H; cbn; auto. destruct H as (A & B & C & D).
    assert (N : back j <> k). { intro Z. apply (Hk 1%nat); [cbn; lia|]. cbn. auto. }
    rewrite !vget_set_other by auto. repeat (split; [solve [auto]|]). apply IH; auto. intros i Hi Z. apply (Hk (Datatypes.S i)); [cbn [length]; lia|].
    rewrite Z. clear. induction i as [|i IH]; auto. change (Nat.iter (Datatypes.S (Datatypes.S i)) back j) with (back (Nat.iter (Datatypes.S i) back j)). rewrite <- IH. auto.
  Qed.
  Lemma ring_push S Y YS j ps s y : (j < m)%nat -> (j < length S)%nat -> (j < length Y)%nat -> (j < length YS)%nat -> ring S Y YS j ps -> (length ps < m)%nat ->
    ring (set_nth S j s) (set_nth Y j y) (set_nth YS j (dot y s)) ((j + 1) mod m) ((s, y) :: ps).
  Proof.
    intros Hj H1 H2 H3 HR Hl. cbn [ring]. rewrite back_forth by auto. rewrite !vget_set_same by auto. repeat (split; [reflexivity|]).
    apply ring_frame; auto. intros i Hi Z. symmetry in Z. revert Z. apply back_iter_neq; auto. lia.
  Qed.
End Ring.
