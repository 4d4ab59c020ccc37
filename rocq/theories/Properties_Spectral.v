(** C83: the Laplacian of spectral clustering, read by its evident meaning. *)
From Coq Require Import Reals Lra Lia.
From Verif Require Import Base Impurity_Spec Impurity_Model Impurity_Proofs Vec Stats_Spec Spectral_Model Spectral_Spec Spectral_Proofs.
Local Open Scope R_scope.

(** The matrix should compare the samples; it compares columns, so with more samples than features (as many columns as there are rows are
    read) the access is out of range. *)
Theorem C83_samples_refuted : forall gamma nc X, (nc < length X)%nat -> laplace_matrix gamma nc X = UB.
Proof. intros gamma nc X H. unfold laplace_matrix. rewrite columns_bad; [reflexivity|]. exists nc. split; [apply in_seq; lia|lia]. Qed.
Print Assumptions C83_samples_refuted.
(** Otherwise it is the Laplacian of the graph on the first features, as many as there are samples. *)
Theorem C83_laplacian : forall gamma nc X, gamma <> 0 -> (length X <= nc)%nat ->
  exists L, laplace_matrix gamma nc X = Ok L /\ length L = length X /\ (forall i, (i < length X)%nat -> length (nth i L []) = length X) /\
    (forall i j, (i < length X)%nat -> (j < length X)%nat -> i <> j -> entry L i j = - alike gamma (feature X i) (feature X j)) /\
    (forall i j, (i < length X)%nat -> (j < length X)%nat -> entry L i j = entry L j i) /\
    (forall i, (i < length X)%nat -> total (map (fun j => entry L i j) (seq 0 (length X))) = 0).
Proof.
  intros gamma nc X Hg Hn. destruct (laplace_ok gamma nc X Hg Hn) as (L & E & L1 & L2 & HL). exists L. split; [exact E|]. split; [exact L1|]. split; [exact L2|]. split; [|split].
  - intros i j Hi Hj D. rewrite HL by auto. destruct (Nat.eqb_spec i j); [lia|]. unfold w. lra.
  - intros i j Hi Hj. rewrite !HL by auto. rewrite (w_sym gamma X j i). destruct (Nat.eqb_spec i j) as [<-|D]; [now rewrite Nat.eqb_refl|]. destruct (Nat.eqb_spec j i); [lia|reflexivity].
  - intros i Hi. eapply row_sum; eauto.
Qed.
Print Assumptions C83_laplacian.
(** It is positive semidefinite, and every two vertices are connected: only constant vectors are in its kernel, so its eigenvectors to the
    eigenvalue 0 separate no clusters. *)
Theorem C83_semidefinite : forall gamma nc X L v, gamma <> 0 -> laplace_matrix gamma nc X = Ok L ->
  form (length X) L v = / 2 * total (map (fun i => total (map (fun j => alike gamma (feature X i) (feature X j) * (v i - v j) ^ 2) (seq 0 (length X)))) (seq 0 (length X))) /\
  0 <= form (length X) L v /\ (form (length X) L v = 0 <-> forall i j, (i < length X)%nat -> (j < length X)%nat -> v i = v j).
Proof.
  intros gamma nc X L v Hg E. destruct (Nat.lt_ge_cases nc (length X)) as [B|Hn]; [rewrite C83_samples_refuted in E by auto; discriminate|].
  destruct (laplace_ok gamma nc X Hg Hn) as (L' & E' & _ & _ & HL). rewrite E in E'. injection E' as <-. split; [|split].
  - first [exact (form_value gamma nc X Hg Hn L HL v)|eapply form_value; eauto].
  - eapply form_nonneg; eauto.
  - eapply form_zero; eauto.
Qed.
Print Assumptions C83_semidefinite.
Example C83_case : exists L, laplace_matrix 1 3 [[0; 1; 5]; [0; 1; 7]] = Ok L /\ entry L 0 1 = - exp (- 1) /\ entry L 0 0 = exp (- 1) /\ entry L 1 0 = - exp (- 1).
Proof.
  destruct (C83_laplacian 1 3 [[0; 1; 5]; [0; 1; 7]]) as (L & E & _ & _ & A & S & Z); [lra|cbn; lia|]. exists L. split; [exact E|].
  assert (H : entry L 0 1 = - exp (- 1)).
  { rewrite A by (cbn; lia). unfold alike, feature, sqn, dot, vsub. cbn. f_equal. f_equal. field. }
  split; [exact H|]. split; [|rewrite S by (cbn; lia); exact H]. specialize (Z 0%nat ltac:(cbn; lia)). cbn in Z. unfold total in Z. cbn in Z. lra.
Qed.
Example C83_refuted_case : laplace_matrix 1 1 [[0]; [1]] = UB := C83_samples_refuted 1 1 [[0]; [1]] (le_n 2).
