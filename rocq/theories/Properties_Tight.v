(** Statements added because a wrong program had slipped through: defaults of k-means, fmin and is_equal, the power iterations of the
    randomized SVD, and one step on a matrix of weights. *)
From Coq Require Import Reals Lra Lia String.
From Verif Require Import Base Common_Model Vec Stats_Proofs Loss_Model Optim_Model KMeans_Model KMeans_Spec Properties_KMeans Linear_Model Linear_Proofs Decomp_Model Objects_Model.
Local Open Scope R_scope.

(** * A default-constructed k-means looks for 3 clusters from a k-means++ start, with at most 300 rounds: the permutation that a random
      start would draw has no effect. *)
Theorem C66_kmeans_default : forall asserts perm perm' first draws nf X,
  kmeans_object_fit asserts kmeans_default perm first draws nf X = kmeans_object_fit asserts (kmeans_new "kmeans++" 10 3 (Z.to_nat 300) (1 / 10000)) perm' first draws nf X /\
  (forall o, kmeans_object_fit asserts kmeans_default perm first draws nf X = Ok o ->
    exists C0, init_centroid 3 X (InitPlusPlus first draws) = Ok C0 /\ lloyd asserts nf 3 (1 / 10000) X (Z.to_nat 300) C0 = Ok (k_centroids o)).
Proof.
  intros asserts perm perm' first draws nf X. split; [reflexivity|]. intros o E. unfold kmeans_object_fit, kmeans_default, kmeans_start in E. cbn [k_init k_clusters k_tol k_max_iter k_num_init] in E.
  change (String.eqb "kmeans++" "random") with false in E. change (String.eqb "kmeans++" "kmeans++") with true in E. cbv iota in E. unfold lit in E.
  destruct (init_centroid 3 X (InitPlusPlus first draws)) as [C0| | |] eqn:E0; try discriminate. cbn [bind] in E. exists C0. split; [reflexivity|].
  destruct (lloyd asserts nf 3 (1 / 10000) X (Z.to_nat 300) C0) as [C| | |]; try discriminate. cbn [bind] in E. injection E as <-. reflexivity.
Qed.
Print Assumptions C66_kmeans_default.
(** Three points, two draws for each further centre: the fit is defined although no permutation is given, with which a random start
    would be undefined. *)
Example C66_kmeans_default_case : (exists o, kmeans_object_fit false kmeans_default [] 0 [[1/4; 3/4]; [1/4; 3/4]] 1 [[0]; [2]; [5]] = Ok o) /\
  kmeans_object_fit false (kmeans_new "random" 10 3 (Z.to_nat 300) (1 / 10000)) [] 0 [[1/4; 3/4]; [1/4; 3/4]] 1 [[0]; [2]; [5]] = UB.
Proof.
  split; [|reflexivity].
  assert (HR : rows 1 [[0]; [2]; [5]]) by (intros r [<-|[<-|[<-|[]]]]; reflexivity).
  assert (W : forall rs, In rs [[1/4; 3/4]; [1/4; 3/4]] -> rs <> [] /\ forall r, In r rs -> 0 <= r <= 1).
  { intros rs H. assert (rs = [1/4; 3/4]) as -> by (destruct H as [<-|[<-|[]]]; reflexivity). split; [discriminate|]. intros r [<-|[<-|[]]]; lra. }
  destruct (C29_plusplus 1 [[0]; [2]; [5]] 0 [[1/4; 3/4]; [1/4; 3/4]] [0] HR eq_refl W seeds_fit) as (Cs & E & L & _).
  destruct (C29_potential 1 [[0]; [2]; [5]] 0 [[1/4; 3/4]; [1/4; 3/4]] [0] _ HR eq_refl W seeds_fit E) as (_ & I & _).
  destruct (C28_defined false 1 [[0]; [2]; [5]] (1 / 10000) (Z.to_nat 300) ([0] :: Cs)) as (C' & E'); [exact HR|intros r Hr; apply HR; now apply I|discriminate|now left|].
  unfold kmeans_object_fit, kmeans_start. cbn [kmeans_default k_init k_clusters k_tol k_max_iter]. change (String.eqb "kmeans++" "random") with false. change (String.eqb "kmeans++" "kmeans++") with true. cbv iota.
  unfold init_centroid. rewrite E. cbn [bind]. cbn [length] in E', L. rewrite L in E'. unfold lit. rewrite E'. cbn [bind]. eexists. reflexivity.
Qed.

(** * fmin keeps the shape and takes the smaller of every entry and the bound; is_equal tells whether two vectors are the same unless the
      second is a proper prefix of the first, when it reads past its end. *)
Theorem C20_fmin : forall m y, mcols (fmin_mat m y) = mcols m /\ length (mrows (fmin_mat m y)) = length (mrows m) /\
  forall i r, nth_error (mrows m) i = Some r -> nth_error (mrows (fmin_mat m y)) i = Some (map (Z.min y) r).
Proof.
  intros m y. unfold fmin_mat. cbn [mcols mrows]. split; [reflexivity|]. split; [apply map_length|]. intros i r H. rewrite nth_error_map, H. cbn [option_map]. f_equal. apply map_ext. intros x.
  destruct (Z.leb_spec y x); lia.
Qed.
Print Assumptions C20_fmin.
Example C20_fmin_case : mrows (fmin_mat (Mat 3 [[-1; 0; 4]; [7; 2; 3]]%Z) 2) = [[-1; 0; 2]; [2; 2; 2]]%Z. Proof. reflexivity. Qed.
Theorem C20_is_equal : forall x y,
  ((exists a z, x = y ++ a :: z) -> is_equal x y = UB) /\
  (~ (exists a z, x = y ++ a :: z) -> exists b, is_equal x y = Ok b /\ (b = true <-> x = y)).
Proof.
  induction x as [|a x IH]; intros [|b y]; split.
  - intros (a & z & E). discriminate.
  - intros _. exists true. split; [reflexivity|tauto].
  - intros (a & z & E). discriminate.
  - intros _. exists false. split; [reflexivity|]. split; discriminate.
  - intros _. reflexivity.
  - intros H. exfalso. apply H. now exists a, x.
  - intros (c & z & E). cbn [app] in E. injection E as -> E. cbn [is_equal]. rewrite Z.eqb_refl. apply IH. now exists c, z.
  - intros H. cbn [is_equal]. destruct (Z.eqb_spec a b) as [->|N].
    + destruct (IH y) as (_ & I). destruct I as (r & Er & Hr); [intros (c & z & ->); apply H; now exists c, z|]. exists r. split; [exact Er|]. rewrite Hr. split; [now intros ->|now intros [= ->]].
    + exists false. split; [reflexivity|]. split; [discriminate|]. intros [= ->]. congruence.
Qed.
Print Assumptions C20_is_equal.
Example C20_is_equal_case : is_equal [1; 2]%Z [1; 2; 3]%Z = Ok false /\ is_equal [1; 2; 3]%Z [1; 2]%Z = UB /\ is_equal [4; 5]%Z [4; 5]%Z = Ok true.
Proof. repeat split; reflexivity. Qed.

(** * The power iterations of the randomized SVD *)
(** X^T X v *)
Definition gram (nc : nat) (X : list (list R)) (v : list R) : list R := vsum nc (map (fun x => vscale (dot x v) x) X).
Definition in_span (d : nat) (M : list (list R)) (v : list R) : Prop := exists c, length c = length M /\ v = vsum d (map2 vscale c M).
(** The columns [N] span at least what the columns [M] span. *)
Definition covers (d : nat) (N M : list (list R)) : Prop := width d N /\ forall v, in_span d M v -> in_span d N v.
Definition repeated {A} (n : nat) (f : A -> A) (x : A) : A := Nat.iter n f x.

Lemma vscale_zeros c d : vscale c (zeros d) = zeros d.
Proof. unfold vscale, zeros. induction d as [|d IH]; [reflexivity|]. cbn [repeat map]. rewrite IH. f_equal. ring. Qed.
Definition linear_on (d e : nat) (f : list R -> list R) : Prop :=
  f (zeros d) = zeros e /\ (forall v, length v = d -> length (f v) = e) /\ forall a u v, length u = d -> length v = d -> f (vadd (vscale a u) v) = vadd (vscale a (f u)) (f v).
Lemma linear_sum d e f : linear_on d e f -> forall M c, width d M -> length c = length M -> f (vsum d (map2 vscale c M)) = vsum e (map2 vscale c (map f M)).
Proof.
  intros (L0 & _ & L1). induction M as [|m M IH]; intros [|a c] W H; try discriminate; [exact L0|]. apply width_cons in W. destruct W as (Wm & W). injection H as H. cbn [map2 map]. unfold vsum in *. cbn [fold_right].
  rewrite L1; [now rewrite IH|exact Wm|]. change (length (vsum d (map2 vscale c M)) = d). apply vsum_length. clear -W. revert c. induction M as [|m M IH]; intros [|a c]; cbn [map2]; try apply width_nil. apply width_cons in W. destruct W. apply width_cons. split; [now rewrite vscale_length|now apply IH].
Qed.
Lemma covers_linear d e f M N : linear_on d e f -> width d M -> covers d N M -> covers e (map f N) (map f M).
Proof.
  intros L WM (WN & H). split.
  - intros x Hx. apply in_map_iff in Hx. destruct Hx as (n & <- & Hn). apply L. now apply WN.
  - intros v (c & Lc & ->). rewrite map_length in Lc. rewrite <- (linear_sum d e f L M c WM Lc). destruct (H (vsum d (map2 vscale c M))) as (c' & Lc' & E'); [now exists c|]. rewrite E'. exists c'. rewrite map_length. split; [exact Lc'|]. now apply linear_sum with (d := d).
Qed.
Lemma covers_refl d M : width d M -> covers d M M. Proof. intros W. split; auto. Qed.
Lemma covers_trans d A B C : covers d A B -> covers d B C -> covers d A C. Proof. intros (W & H) (_ & H'). split; auto. Qed.
Lemma times_linear nc X : width nc X -> linear_on nc (length X) (fun q => map (fun x => dot x q) X).
Proof.
  intros W. split; [|split].
  - unfold zeros. clear W. induction X as [|x X IH]; [reflexivity|]. cbn [map length repeat]. rewrite IH. f_equal. rewrite dot_comm. apply dot_zeros_l.
  - intros v _. apply map_length.
  - intros a u v Hu Hv. clear W. induction X as [|x X IH]; [reflexivity|]. cbn [map vscale vadd map2]. unfold vadd, vscale in IH |- *. cbn [map map2]. rewrite IH. f_equal. fold (vscale a u). fold vadd. rewrite dot_vadd_r by (rewrite vscale_length; congruence). now rewrite dot_vscale_r.
Qed.
Lemma vadd_swap : forall (a b c d : list R), vadd (vadd a b) (vadd c d) = vadd (vadd a c) (vadd b d).
Proof. unfold vadd. induction a as [|x a IH]; intros [|y b] [|z c] [|w d]; cbn [map2]; try reflexivity. rewrite IH. f_equal. ring. Qed.
Lemma times_t_linear nc X : width nc X -> linear_on (length X) nc (fun q => vsum nc (map2 vscale q X)).
Proof.
  intros W. split; [|split].
  - unfold zeros at 1. induction X as [|x X IH]; [reflexivity|]. apply width_cons in W. destruct W as (Wx & W). cbn [length repeat map2]. unfold vsum in *. cbn [fold_right]. rewrite (IH W). unfold vadd, zeros. clear -Wx. subst nc. induction x as [|a x IH]; [reflexivity|]. cbn [vscale map length repeat map2]. f_equal; [ring|exact IH].
  - intros v _. apply vsum_length. revert v. clear -W. induction X as [|x X IH]; intros [|a v]; cbn [map2]; try apply width_nil. apply width_cons in W. destruct W. apply width_cons. split; [now rewrite vscale_length|now apply IH].
  - intros a u v Hu Hv. revert u v Hu Hv. induction X as [|x X IH]; intros [|b u] [|c v] Hu Hv; try discriminate.
    + cbn [vadd vscale map map2]. unfold vsum. cbn [fold_right]. rewrite vscale_zeros. unfold vadd, zeros. clear. induction nc as [|n IH]; [reflexivity|]. cbn [repeat map2]. rewrite <- IH. f_equal. ring.
    + apply width_cons in W. destruct W as (Wx & W). injection Hu as Hu. injection Hv as Hv. change (vadd (vscale a (b :: u)) (c :: v)) with ((a * b + c) :: vadd (vscale a u) v). cbn [map2]. unfold vsum in *. cbn [fold_right]. rewrite (IH W) by assumption.
      set (p := fold_right vadd (zeros nc) (map2 vscale u X)). set (q := fold_right vadd (zeros nc) (map2 vscale v X)).
      assert (S : vscale a (vadd (vscale b x) p) = vadd (vscale (a * b) x) (vscale a p)).
      { generalize p. clear. unfold vadd, vscale. induction x as [|z x IH]; intros [|w p]; cbn [map map2]; try reflexivity. rewrite IH. f_equal. ring. }
      assert (D : vscale (a * b + c) x = vadd (vscale (a * b) x) (vscale c x)) by (clear; unfold vadd, vscale; induction x as [|z x IH]; cbn [map map2]; [reflexivity|]; rewrite IH; f_equal; ring).
      change (vadd (vscale (a * b + c) x) (vadd (vscale a p) q) = vadd (vscale a (vadd (vscale b x) p)) (vadd (vscale c x) q)).
      rewrite S, D. apply vadd_swap.
Qed.
Lemma gram_as nc X q : vsum nc (map2 vscale (map (fun x => dot x q) X) X) = gram nc X q.
Proof. unfold gram. f_equal. induction X as [|x X IH]; [reflexivity|]. cbn [map map2]. now rewrite IH. Qed.
Lemma times_t_times nc X Q : times_t nc X (times X Q) = map (gram nc X) Q.
Proof. unfold times_t, times. rewrite map_map. apply map_ext. intros q. apply gram_as. Qed.
Lemma repeated_map {A} n (f : A -> A) l : map (repeated n f) (map f l) = map (repeated (S n) f) l.
Proof. rewrite map_map. apply map_ext. intros a. unfold repeated. induction n as [|n IH]; [reflexivity|]. change (f (Nat.iter n f (f a)) = f (Nat.iter (S n) f a)). now rewrite IH. Qed.
Lemma gram_width nc X M : width nc X -> width nc (map (gram nc X) M).
Proof.
  intros W x Hx. apply in_map_iff in Hx. destruct Hx as (q & <- & _). unfold gram. apply vsum_length. intros z Hz. apply in_map_iff in Hz. destruct Hz as (x & <- & Hx). rewrite vscale_length. now apply W.
Qed.

(** Without normalisation [iters] power iterations multiply every drawn column [iters] times by X^T X; with LU or QR they keep at least
    the span of that, whatever the factorisations return so long as their columns span their argument's columns. *)
Theorem C50_power_iterations : forall lu qr normalizer nc X iters draw, width nc X -> width nc draw -> In normalizer ["None"; "LU"; "QR"]%string ->
  (forall d M, width d M -> covers d (lu M) M) -> (forall d M, width d M -> covers d (qr M) M) ->
  exists Q, power_steps lu qr normalizer nc X iters draw = Ok Q /\ covers nc Q (map (repeated iters (gram nc X)) draw) /\
    (normalizer = "None"%string -> Q = map (repeated iters (gram nc X)) draw).
Proof.
  intros lu qr nz nc X iters draw WX WD Hn HL HQ.
  assert (ST : forall M N, width nc M -> covers nc N M -> exists Q, power_step lu qr nz nc X N = Ok Q /\ covers nc Q (map (gram nc X) M) /\ (nz = "None"%string -> Q = map (gram nc X) N)).
  { intros M N WM HC. assert (WN : width nc N) by apply HC.
    assert (G : covers nc (map (gram nc X) N) (map (gram nc X) M)).
    { rewrite <- !times_t_times. unfold times_t, times. apply (covers_linear (length X) nc _ _ _ (times_t_linear nc X WX)); [|apply (covers_linear nc (length X) _ _ _ (times_linear nc X WX) WM HC)].
      intros z Hz. apply in_map_iff in Hz. destruct Hz as (q & <- & _). apply map_length. }
    assert (F : forall g, (forall d M, width d M -> covers d (g M) M) -> covers nc (g (times_t nc X (g (times X N)))) (map (gram nc X) M)).
    { intros g Hg. assert (WT : width (length X) (times X N)) by (intros z Hz; apply in_map_iff in Hz; destruct Hz as (q & <- & _); apply map_length).
      assert (C1 : covers nc (times_t nc X (g (times X N))) (times_t nc X (times X N))) by (unfold times_t; apply (covers_linear (length X) nc _ _ _ (times_t_linear nc X WX) WT); now apply Hg).
      eapply covers_trans; [apply Hg; apply C1|]. eapply covers_trans; [exact C1|]. rewrite times_t_times. exact G. }
    unfold power_step. destruct Hn as [<-|[<-|[<-|[]]]]; cbn [String.eqb Ascii.eqb Bool.eqb]; eexists; (split; [reflexivity|]).
    - rewrite times_t_times. split; [exact G|reflexivity].
    - split; [now apply F|discriminate].
    - split; [now apply F|discriminate]. }
  assert (G : forall iters M N, width nc M -> covers nc N M -> exists Q, power_steps lu qr nz nc X iters N = Ok Q /\ covers nc Q (map (repeated iters (gram nc X)) M) /\ (nz = "None"%string -> Q = map (repeated iters (gram nc X)) N)).
  { induction iters0 as [|k IH]; intros M N WM HC; cbn [power_steps].
    - exists N. split; [reflexivity|]. unfold repeated. cbn [Nat.iter]. rewrite !map_id. split; [exact HC|reflexivity].
    - destruct (ST M N WM HC) as (Q1 & E1 & C1 & N1). rewrite E1. cbn [bind]. destruct (IH _ Q1 (gram_width nc X M WX) C1) as (Q & E & C & N2). exists Q. split; [exact E|]. rewrite repeated_map in C. split; [exact C|].
      intros Hz. rewrite (N2 Hz), (N1 Hz). apply repeated_map. }
  apply G; [exact WD|now apply covers_refl].
Qed.
Print Assumptions C50_power_iterations.
Example C50_power_iterations_case : exists Q, power_steps (fun m => m) (fun m => m) "None" 2 [[1; 0]; [1; 1]; [0; 2]] 2 [[1; 0]; [0; 1]] = Ok Q /\ Q = [[5; 7]; [7; 26]].
Proof.
  destruct (C50_power_iterations (fun m => m) (fun m => m) "None" 2 [[1; 0]; [1; 1]; [0; 2]] 2 [[1; 0]; [0; 1]]) as (Q & E & _ & N).
  - intros x [<-|[<-|[<-|[]]]]; reflexivity.
  - intros x [<-|[<-|[]]]; reflexivity.
  - cbn; auto.
  - intros. now apply covers_refl.
  - intros. now apply covers_refl.
  - exists Q. split; [exact E|]. rewrite (N eq_refl). unfold repeated, gram, vsum, vadd, vscale, dot, zeros. cbn -[Rplus Rmult IZR]. f_equal; [|f_equal]; (f_equal; [ring|f_equal; ring]).
Qed.

(** * One step on a matrix of weights, as the softmax regression makes it: entry by entry W - lr * G. *)
Theorem C49_softmax_step : forall W G lr nc, width nc W -> width nc G -> length G = length W ->
  exists W', mat_update W G lr = Ok W' /\ length W' = length W /\ width nc W' /\
    forall i j, nth j (nth i W' []) 0 = nth j (nth i W []) 0 - lr * nth j (nth i G []) 0.
Proof.
  intros W G lr nc WW WG HL. unfold mat_update. rewrite HL, Nat.eqb_refl. revert G WG HL. induction W as [|w W IH]; intros [|g G] WG HL; try discriminate.
  - exists []. split; [reflexivity|]. split; [reflexivity|]. split; [apply width_nil|]. intros [|i] [|j]; cbn [nth]; ring.
  - apply width_cons in WW. destruct WW as (Ww & WW). apply width_cons in WG. destruct WG as (Wg & WG). injection HL as HL. destruct (IH WW G WG HL) as (W' & E & L & WD & H).
    cbn [combine mapM fst snd]. unfold vanilla_update at 1, sub. rewrite vscale_length, Ww, Wg, Nat.eqb_refl. cbn [bind]. rewrite E. cbn [bind]. eexists. split; [reflexivity|]. split; [cbn [length]; now rewrite L|]. split.
    + apply width_cons. split; [|exact WD]. rewrite vsub_length; [exact Ww|]. rewrite vscale_length. congruence.
    + intros [|i] j; cbn [nth]; [|apply H]. clear -Ww Wg. subst nc. revert g Wg j. induction w as [|a w IH]; intros [|b g] Wg j; try discriminate; [destruct j; cbn [vscale vsub map map2 nth]; ring|]. destruct j as [|j]; cbn [vscale vsub map map2 nth]; [reflexivity|]. apply IH. now injection Wg.
Qed.
Print Assumptions C49_softmax_step.
Example C49_softmax_step_case : exists W', mat_update [[1; 2]; [3; 4]] [[1; 0]; [0; 1]] (1 / 2) = Ok W' /\ nth 0 (nth 0 W' []) 0 = 1 / 2.
Proof.
  destruct (C49_softmax_step [[1; 2]; [3; 4]] [[1; 0]; [0; 1]] (1 / 2) 2) as (W' & E & _ & _ & H); [intros x [<-|[<-|[]]]; reflexivity|intros x [<-|[<-|[]]]; reflexivity|reflexivity|].
  exists W'. split; [exact E|]. rewrite H. cbn [nth]. lra.
Qed.
