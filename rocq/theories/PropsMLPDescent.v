(** Property C70: does a small learning step reduce the error on the sample it was made for?  Yes for networks with one
    hidden layer, for any number of outputs; not in general for deeper ones. *)
From Coq Require Import Reals Lra Psatz QArith Permutation.
From Verif Require Import Py Num Numpy StructProofs Spec RVec RMat Mlp PropsMLP PropsMLPR PropsBackprop PropsMLPSym.
Open Scope R_scope.

Section Descent.
  Variable solve : list rvec -> list rvec -> option (list rvec).
  #[local] Hint Extern 0 (Num R) => exact (RNum solve) : typeclass_instances.
  Notation net := (net R).
  Notation val := (val R).

  (** the sum of the squared errors of the o outputs *)
  Definition sq_error (o : nat) (d y : val) : R := sumn o (fun r => (comp d r - comp y r) ^ 2).

  Lemma decrease (phi : R -> R) l : derivable_pt_lim phi 0 l -> l < 0 -> exists m, 0 < m /\ forall t, 0 < t < m -> phi t < phi 0.
  Proof.
    intros H Hl. destruct (H (- l / 2)) as (m & Hm); [lra|]. exists m. split; [apply (cond_pos m)|]. intros t Ht.
    specialize (Hm t ltac:(lra)). rewrite Rabs_pos_eq in Hm by lra. specialize (Hm ltac:(lra)). rewrite Rplus_0_l in Hm.
    apply Rabs_def2 in Hm as (H1 & _). assert (Hq : (phi t - phi 0) / t < l / 2) by lra.
    apply (Rmult_lt_compat_r t) in Hq; [|lra]. unfold Rdiv at 1 in Hq. rewrite Rmult_assoc, Rinv_l in Hq by lra. nra.
  Qed.
  Lemma increase (phi : R -> R) l : derivable_pt_lim phi 0 l -> 0 < l -> exists m, 0 < m /\ forall t, 0 < t < m -> phi 0 < phi t.
  Proof.
    intros H Hl. destruct (decrease (opp_fct phi) (- l)) as (m & Hm & Hd); [apply derivable_pt_lim_opp; auto|lra|].
    exists m. split; auto. intros t Ht. specialize (Hd t Ht). unfold opp_fct in Hd. lra.
  Qed.
  Lemma der_squash f z : derivable_pt_lim (squash f) z (slope f (squash f z)).
  Proof.
    pose proof (C45_derivative solve f z) as H. rewrite (squash_act solve), (slope_act solve) in H.
    eapply derivable_pt_lim_ext; [|exact H]. intros t. apply (squash_act solve).
  Qed.
  Lemma squash_range f z : -1 < squash f z < 1.
  Proof.
    rewrite <- (squash_act solve). destruct f; [pose proof (C45_sigmoid_range solve z); lra|apply (C45_tanh_range solve)].
  Qed.
  Lemma der_along f z b : derivable_pt_lim (fun t => squash f (z + t * b)) 0 (slope f (squash f z) * b).
  Proof.
    assert (H : derivable_pt_lim (fun t => z + t * b) 0 b).
    { pose proof (der_affine z b 0) as D. eapply derivable_pt_lim_ext; [|exact D]. intros t. cbv beta. ring. }
    pose proof (derivable_pt_lim_comp _ (squash f) _ _ _ H (der_squash f (z + 0 * b))) as D.
    replace (z + 0 * b) with z in D by ring. exact D.
  Qed.
  Lemma der_sq (c : R) (phi : R -> R) z p : derivable_pt_lim phi z p -> derivable_pt_lim (fun t => (c - phi t) ^ 2) z (- 2 * (c - phi z) * p).
  Proof.
    intros H. pose proof (der_half_square c phi z p H) as D. pose proof (derivable_pt_lim_scal _ 2 _ _ D) as D2.
    replace (- 2 * (c - phi z) * p) with (2 * - ((c - phi z) * p)) by ring.
    eapply derivable_pt_lim_ext; [|exact D2]. intros t. unfold mult_real_fct. cbv beta. field.
  Qed.

  Theorem C70_small_steps_help : forall s n_input outputs f mu n x d y,
    net_of [s] n_input outputs f mu n -> length x = n_input -> vlen d outputs -> snd (net_predict x n) = Ok y ->
    0 < sq_error outputs d y ->
    exists m, 0 < m /\ forall eta n1 y1, 0 < eta < m -> net_of [s] n_input outputs f (MuNum eta) n1 ->
      same_weights [s] n_input outputs n n1 -> snd (net_predict x (learn n1 (x, d))) = Ok y1 ->
      sq_error outputs d y1 < sq_error outputs d y.
  Proof.
    intros s k o f mu n x d y Hn Hx Hd Ey Hpos.
    destruct (C66_learning_step solve _ _ _ _ _ n x d Hn Hx Hd) as (y' & e0 & E1 & _ & Hy & _). cbv zeta in Hy. rewrite Ey in E1.
    assert (y' = y) by (injection E1; auto). subst y'. clear E1 e0. cbn [length] in Hy.
    set (W := hidden_w n) in *. set (V := out_w n) in *. set (xx := fun j => nth j x 0) in *.
    change (width k [s] 1) with s in Hy.
    set (z := fun j => W 0%nat j 0%nat + sumn k (fun i => W 0%nat j (S i) * xx i)).
    set (a := fun j => squash f (z j)).
    assert (Ha : forall j, activity f (width k [s]) W xx 1 j = a j) by reflexivity.
    set (e := fun i => comp d i - comp y i).
    set (X := 1 + sumn k (fun i => xx i * xx i)).
    set (kap := fun j => if Nat.eqb o 1 then 1 else 1 - a j).
    set (b := fun j => sumn o (fun i => e i * V i (S j))).
    set (del := fun j => slope f (a j) * (kap j * b j)).
    set (Y := fun i t => (V i 0%nat + t * e i) + sumn s (fun j => (V i (S j) + t * (e i * a j)) * squash f (z j + t * (del j * X)))).
    set (Y1 := fun i => e i + sumn s (fun j => e i * a j * a j + V i (S j) * (slope f (a j) * (del j * X)))).
    assert (HY0 : forall i, (i < o)%nat -> Y i 0 = comp y i).
    { intros i Hi. rewrite Hy by auto. unfold Y, response. rewrite Rmult_0_l, Rplus_0_r. f_equal. apply sumn_ext. intros j Hj.
      rewrite !Rmult_0_l, !Rplus_0_r. reflexivity. }
    assert (HD : forall i, derivable_pt_lim (Y i) 0 (Y1 i)).
    { intros i. unfold Y, Y1. apply (derivable_pt_lim_plus (fun t => V i 0%nat + t * e i)).
      - pose proof (der_affine (V i 0%nat) (e i) 0) as D. eapply derivable_pt_lim_ext; [|exact D]. intros t. cbv beta. ring.
      - apply (der_sumn s (fun j t => (V i (S j) + t * (e i * a j)) * squash f (z j + t * (del j * X)))). intros j Hj.
        pose proof (der_along f (z j) (del j * X)) as D2.
        assert (D1 : derivable_pt_lim (fun t => V i (S j) + t * (e i * a j)) 0 (e i * a j)).
        { pose proof (der_affine (V i (S j)) (e i * a j) 0) as D. eapply derivable_pt_lim_ext; [|exact D]. intros t. cbv beta. ring. }
        pose proof (derivable_pt_lim_mult _ _ _ _ _ D1 D2) as D3. cbv beta in D3. rewrite !Rmult_0_l, !Rplus_0_r in D3. exact D3. }
    pose proof (der_sumn o (fun i t => (comp d i - Y i t) ^ 2) (fun i => - 2 * (comp d i - Y i 0) * Y1 i) 0
      (fun i Hi => der_sq (comp d i) (Y i) 0 (Y1 i) (HD i))) as DS.
    assert (Hneg : sumn o (fun i => - 2 * (comp d i - Y i 0) * Y1 i) < 0).
    { rewrite (sumn_ext o _ (fun i => (- 2) * (e i * Y1 i))) by (intros i Hi; rewrite HY0 by auto; unfold e; ring).
      rewrite sumn_scal.
      assert (HS : sumn o (fun i => e i * Y1 i) = sumn o (fun i => e i ^ 2 * (1 + sumn s (fun j => a j * a j))) + X * sumn s (fun j => kap j * (slope f (a j) * b j) ^ 2)).
      { transitivity (sumn o (fun i => e i ^ 2 * (1 + sumn s (fun j => a j * a j))) + sumn o (fun i => sumn s (fun j => e i * (V i (S j) * (slope f (a j) * (del j * X)))))).
        - rewrite <- sumn_plus. apply sumn_ext. intros i Hi. unfold Y1. rewrite sumn_plus.
          rewrite (sumn_scal s (e i)). rewrite (sumn_ext s (fun j => e i * a j * a j) (fun j => e i * (a j * a j))) by (intros; ring).
          rewrite (sumn_scal s (e i)). ring.
        - f_equal. rewrite sumn_swap. rewrite <- sumn_scal. apply sumn_ext. intros j Hj.
          rewrite (sumn_ext o _ (fun i => (slope f (a j) * (del j * X)) * (e i * V i (S j)))) by (intros; ring).
          rewrite sumn_scal. fold (b j). unfold del. ring. }
      rewrite HS.
      assert (H1 : sq_error o d y <= sumn o (fun i => e i ^ 2 * (1 + sumn s (fun j => a j * a j)))).
      { unfold sq_error. apply sumn_le. intros i Hi. fold (e i). assert (0 <= sumn s (fun j => a j * a j)) by (apply sumn_nonneg; intros; nra).
        pose proof (pow2_ge_0 (e i)). nra. }
      assert (H2 : 0 <= X * sumn s (fun j => kap j * (slope f (a j) * b j) ^ 2)).
      { apply Rmult_le_pos.
        - unfold X. assert (0 <= sumn k (fun i => xx i * xx i)) by (apply sumn_nonneg; intros; nra). lra.
        - apply sumn_nonneg. intros j Hj. apply Rmult_le_pos; [|apply pow2_ge_0]. unfold kap, a. pose proof (squash_range f (z j)). destruct (Nat.eqb o 1); lra. }
      lra. }
    destruct (decrease _ _ DS Hneg) as (m & Hm & Hdec). exists m. split; auto.
    intros eta n1 y1 Heta Hn1 (Hw1 & Hw2) Ey1.
    assert (H0 : sumn o (fun i => (comp d i - Y i 0) ^ 2) = sq_error o d y) by (unfold sq_error; apply sumn_ext; intros i Hi; rewrite HY0; auto).
    rewrite <- H0. clear H0.
    replace (sq_error o d y1) with (sumn o (fun i => (comp d i - Y i eta) ^ 2)); [exact (Hdec eta Heta)|].
    unfold sq_error. apply sumn_ext. intros i Hi. do 2 f_equal. symmetry.
    destruct (C66_learning_step solve _ _ _ _ _ (learn n1 (x, d)) x d (net_of_learn solve _ _ _ _ _ _ _ Hn1) Hx Hd) as (y2 & e2 & E2 & _ & Hy2 & _).
    cbv zeta in Hy2. rewrite Ey1 in E2. assert (y2 = y1) by (injection E2; auto). subst y2. rewrite Hy2 by auto.
    destruct (C66_learning_step solve _ _ _ _ _ n1 x d Hn1 Hx Hd) as (y3 & e3 & _ & _ & _ & (D & A1 & A2 & A3 & A4 & _)).
    cbn [length] in *. change (width k [s] 1) with s in *. change (width k [s] 0) with k in *. cbn [Nat.sub] in A4. fold xx in A1, A2, A3, A4 |- *.
    fold W V in Hw1, Hw2. change (width k [s] 1) with s in *. change (width k [s] 0) with k in *.
    assert (Ha1 : forall j, (j < s)%nat -> activity f (width k [s]) (hidden_w n1) xx 1 j = a j).
    { intros j Hj. unfold a, z. cbn [activity]. change (width k [s] 0) with k. f_equal. 
      rewrite (Hw1 0%nat j 0%nat) by (try change (width k [s] 1) with s; try change (width k [s] 0) with k; lia). f_equal. apply sumn_ext. intros i0 Hi0.
      rewrite (Hw1 0%nat j (S i0)) by (try change (width k [s] 1) with s; try change (width k [s] 0) with k; lia). reflexivity. }
    assert (He : forall r, (r < o)%nat -> e3 = e3 /\ comp e3 r = e r).
    { intros r Hr. split; auto. rewrite A1 by auto. unfold e. rewrite Hy by auto. f_equal. unfold response. rewrite (Hw2 r 0%nat) by lia. f_equal.
      apply sumn_ext. intros j Hj. rewrite (Hw2 r (S j)) by lia. rewrite Ha1 by auto. reflexivity. }
    assert (HDel : forall j, (j < s)%nat -> D 0%nat j = del j).
    { intros j Hj. rewrite A4 by auto. rewrite Ha1 by auto. unfold del, kap, b. f_equal. destruct (Nat.eqb_spec o 1) as [Eo|Eo].
      - subst o. cbn [sumn]. rewrite (Hw2 0%nat (S j)) by lia. destruct (He 0%nat ltac:(lia)) as (_ & ->). ring.
      - f_equal. apply sumn_ext. intros i0 Hi0. destruct (He i0 Hi0) as (_ & ->). rewrite (Hw2 i0 (S j)) by lia. reflexivity. }
    assert (Hin : forall j, (j < s)%nat -> activity f (width k [s]) (hidden_w (learn n1 (x, d))) xx 1 j = squash f (z j + eta * (del j * X))).
    { intros j Hj. cbn [activity]. change (width k [s] 0) with k. f_equal.
      rewrite (A3 0%nat j 0%nat) by (try change (width k [s] 1) with s; try change (width k [s] 0) with k; lia).
      rewrite (Hw1 0%nat j 0%nat) by (try change (width k [s] 1) with s; try change (width k [s] 0) with k; lia).
      rewrite HDel by auto. cbn [lead rate_of].
      rewrite (sumn_ext k _ (fun i0 => W 0%nat j (S i0) * xx i0 + eta * del j * (xx i0 * xx i0))).
      - rewrite sumn_plus, sumn_scal. unfold z, X. ring.
      - intros i0 Hi0. rewrite (A3 0%nat j (S i0)) by (try change (width k [s] 1) with s; try change (width k [s] 0) with k; lia).
        rewrite (Hw1 0%nat j (S i0)) by (try change (width k [s] 1) with s; try change (width k [s] 0) with k; lia).
        rewrite HDel by auto. cbn [lead rate_of activity]. ring. }
    destruct (He i Hi) as (_ & Hei).
    unfold response, Y. rewrite (A2 i 0%nat) by lia. rewrite (Hw2 i 0%nat) by lia. rewrite Hei. cbn [lead rate_of]. rewrite Rmult_1_r. f_equal.
    apply sumn_ext. intros j Hj. rewrite (A2 i (S j)) by lia. rewrite (Hw2 i (S j)) by lia. rewrite Hei. cbn [rate_of]. cbn [lead].
    rewrite (Ha1 j Hj), (Hin j Hj). ring.
  Qed.

  (** *** deeper networks *)
  (** two hidden layers (1 and 2 nodes), two outputs; learning rate eta *)
  Definition u_rng1 (s : R) (k : nat) : rvec := repeat 0 k.
  Definition u_rng (i : nat) (s : R) (r c : nat) : rmat :=
    match i, r, c with
    | 2%nat, 2%nat, 2%nat => [[ln 3 - 1; 2]; [1 / 2 - ln 3; -1]]
    | 0%nat, 2%nat, 3%nat => [[0; 1; 1]; [0; 0; 0]]
    | _, _, _ => repeat (repeat 0 c) r
    end.
  Lemma u_rngs_ok : rngs_ok u_rng1 u_rng.
  Proof.
    assert (Hz : forall r c, msh r c (repeat (repeat 0 c) r)).
    { intros r c; split; [apply repeat_length|]. apply Forall_forall. intros a Ha. apply repeat_spec in Ha; subst. apply repeat_length. }
    split; [intros s k; apply repeat_length|]. intros i s r c. unfold u_rng.
    destruct i as [|[|[|i]]]; try apply Hz; destruct r as [|[|[|r]]]; try apply Hz; destruct c as [|[|[|[|c]]]]; try apply Hz;
      (split; [reflexivity|repeat constructor]).
  Qed.
  Definition u_net (eta : R) : net := mkNet eta 1 2 (W2 [[0; 1; 1]; [0; 0; 0]]) [1; 1; 1] (VNum 0)
    [mkLayer eta 1 [[0; 0]] [1; 1] [0; 0] Sigmoid; mkLayer eta 1 [[ln 3 - 1; 2]; [1 / 2 - ln 3; -1]] [1; 1] [0; 0] Sigmoid].
  Lemma u_net_of eta : net_of [1; 2]%nat 1 2 Sigmoid (MuNum eta) (u_net eta).
  Proof. apply (made _ _ _ _ _ u_rng1 u_rng); [apply u_rngs_ok|reflexivity]. Qed.
  Lemma squash_0 : squash Sigmoid 0 = 1 / 2.
  Proof. cbn [squash]. unfold logistic. rewrite Ropp_0, exp_0. field. Qed.
  Lemma squash_ln3 : squash Sigmoid (ln 3) = 3 / 4.
  Proof. cbn [squash]. unfold logistic. rewrite exp_Ropp, exp_ln by lra. field. Qed.
  Lemma squash_mln3 : squash Sigmoid (- ln 3) = 1 / 4.
  Proof. cbn [squash]. unfold logistic. rewrite Ropp_involutive, exp_ln by lra. field. Qed.

  (** the error grows at every small enough learning rate: the step is not a descent direction *)
  Theorem C70_deeper_refuted : exists sizes n_input outputs f n x d y,
    net_of sizes n_input outputs f (MuNum 1) n /\ length x = n_input /\ vlen d outputs /\ snd (net_predict x n) = Ok y /\
    0 < sq_error outputs d y /\
    (forall eta, exists n1, net_of sizes n_input outputs f (MuNum eta) n1 /\ same_weights sizes n_input outputs n n1) /\
    exists m, 0 < m /\ forall eta n1 y1, 0 < eta < m -> net_of sizes n_input outputs f (MuNum eta) n1 ->
      same_weights sizes n_input outputs n n1 -> snd (net_predict x (learn n1 (x, d))) = Ok y1 ->
      sq_error outputs d y < sq_error outputs d y1.
  Proof.
    set (d := VArr [2; 0]). set (x := [100] : rvec).
    assert (Hx : length x = 1%nat) by reflexivity. assert (Hd : vlen d 2) by (split; [lia|reflexivity]).
    destruct (C66_learning_step solve _ _ _ _ _ (u_net 1) x d (u_net_of 1) Hx Hd) as (y & e0 & Ey & _ & Hy & _). cbv zeta in Hy.
    exists [1; 2]%nat, 1%nat, 2%nat, Sigmoid, (u_net 1), x, d, y.
    split; [apply u_net_of|]. split; auto. split; auto. split; auto.
    assert (Hw : forall W, (forall q r c, (q < 2)%nat -> (r < width 1 [1; 2]%nat (S q))%nat -> (c <= width 1 [1; 2]%nat q)%nat -> W q r c = hidden_w (u_net 1) q r c) ->
      activity Sigmoid (width 1 [1; 2]%nat) W (fun j => nth j x 0) 1 0%nat = 1 / 2 /\
      activity Sigmoid (width 1 [1; 2]%nat) W (fun j => nth j x 0) 2 0%nat = 3 / 4 /\
      activity Sigmoid (width 1 [1; 2]%nat) W (fun j => nth j x 0) 2 1%nat = 1 / 4).
    { intros W HW. 
      assert (E1 : activity Sigmoid (width 1 [1; 2]%nat) W (fun j => nth j x 0) 1 0%nat = 1 / 2).
      { change (squash Sigmoid (W 0%nat 0%nat 0%nat + sumn 1 (fun j => W 0%nat 0%nat (S j) * nth j x 0)) = 1 / 2). cbn [sumn].
        rewrite !HW by (unfold width; cbn [nth]; lia). rewrite !hidden_w_nth. cbn [m_layers u_net nth l_w ent x].
        replace (0 + (0 + 0 * 100)) with 0 by ring. apply squash_0. }
      split; auto. split.
      - change (squash Sigmoid (W 1%nat 0%nat 0%nat + sumn 1 (fun j => W 1%nat 0%nat (S j) * activity Sigmoid (width 1 [1; 2]%nat) W (fun j => nth j x 0) 1 j)) = 3 / 4).
        cbn [sumn]. rewrite E1. rewrite !HW by (unfold width; cbn [nth]; lia). rewrite !hidden_w_nth. cbn [m_layers u_net nth l_w]. unfold ent; cbn [nth].
        replace (ln 3 - 1 + (0 + 2 * (1 / 2))) with (ln 3) by field. apply squash_ln3.
      - change (squash Sigmoid (W 1%nat 1%nat 0%nat + sumn 1 (fun j => W 1%nat 1%nat (S j) * activity Sigmoid (width 1 [1; 2]%nat) W (fun j => nth j x 0) 1 j)) = 1 / 4).
        cbn [sumn]. rewrite E1. rewrite !HW by (unfold width; cbn [nth]; lia). rewrite !hidden_w_nth. cbn [m_layers u_net nth l_w]. unfold ent; cbn [nth].
        replace (1 / 2 - ln 3 + (0 + -1 * (1 / 2))) with (- ln 3) by field. apply squash_mln3. }
    assert (Hy01 : comp y 0 = 1 /\ comp y 1 = 0).
    { destruct (Hw (hidden_w (u_net 1)) ltac:(auto)) as (_ & A1 & A2). cbn [length] in Hy. split.
      - rewrite Hy by lia. unfold response. change (width 1 [1; 2]%nat 2) with 2%nat. cbn [sumn]. rewrite A1, A2. unfold out_w, u_net, ent; cbn [m_w nth]. field.
      - rewrite Hy by lia. unfold response. change (width 1 [1; 2]%nat 2) with 2%nat. cbn [sumn]. rewrite A1, A2. unfold out_w, u_net, ent; cbn [m_w nth]. field. }
    destruct Hy01 as (Hy0 & Hy1).
    assert (Hsq : sq_error 2 d y = 1) by (unfold sq_error; cbn [sumn comp d nth]; rewrite Hy0, Hy1; ring).
    rewrite Hsq. split; [lra|]. split.
    { intros eta. exists (u_net eta). split; [apply u_net_of|]. split; [|intros; reflexivity].
      intros q r c Hq _ _. cbn [length] in Hq. destruct q as [|[|q]]; [reflexivity|reflexivity|lia]. }
    set (g := fun t => t * (-3 / 512 + t * (90 / 65536)) * 10001).
    set (Y := fun t => t + ((1 + t * (3 / 4)) * squash Sigmoid (ln 3 - 1 + t * (3 / 64) + (2 + t * (3 / 128)) * squash Sigmoid (g t)) +
                       (1 + t * (1 / 4)) * squash Sigmoid (1 / 2 - ln 3 + t * (9 / 64) + (-1 + t * (9 / 128)) * squash Sigmoid (g t)))).
    assert (Dg : derivable_pt_lim g 0 (-30003 / 512)).
    { assert (D1 : derivable_pt_lim (fun t => t * (-3 / 512 + t * (90 / 65536))) 0 (-3 / 512)).
      { pose proof (derivable_pt_lim_mult (fun t => t) (fun t => -3 / 512 + t * (90 / 65536)) 0 1 (90 / 65536) (derivable_pt_lim_id 0)) as D.
        assert (D' : derivable_pt_lim (fun t => -3 / 512 + t * (90 / 65536)) 0 (90 / 65536)).
        { pose proof (der_affine (-3 / 512) (90 / 65536) 0) as D0. eapply derivable_pt_lim_ext; [|exact D0]. intros t. cbv beta. ring. }
        specialize (D D'). cbv beta in D. replace (1 * (-3 / 512 + 0 * (90 / 65536)) + 0 * (90 / 65536)) with (-3 / 512) in D by ring. exact D. }
      pose proof (derivable_pt_lim_scal _ 10001 _ _ D1) as D2. replace (-30003 / 512) with (10001 * (-3 / 512)) by field.
      eapply derivable_pt_lim_ext; [|exact D2]. intros t. unfold mult_real_fct, g. ring. }
    assert (g0 : g 0 = 0) by (unfold g; ring).
    assert (Da : derivable_pt_lim (fun t => squash Sigmoid (g t)) 0 (1 / 4 * (-30003 / 512))).
    { pose proof (derivable_pt_lim_comp _ _ _ _ _ Dg (der_squash Sigmoid (g 0))) as D. rewrite g0, squash_0 in D.
      replace (slope Sigmoid (1 / 2)) with (1 / 4) in D by (cbn [slope]; field). exact D. }
    assert (Hbr : forall c0 c1 w0 w1 v1 z0, squash Sigmoid (c0 + w0 * (1 / 2)) = z0 ->
      derivable_pt_lim (fun t => (1 + t * v1) * squash Sigmoid (c0 + t * c1 + (w0 + t * w1) * squash Sigmoid (g t))) 0
        (v1 * z0 + slope Sigmoid z0 * (c1 + (w1 * (1 / 2) + w0 * (1 / 4 * (-30003 / 512)))))).
    { intros c0 c1 w0 w1 v1 z0 Hz.
      assert (Al : forall p q, derivable_pt_lim (fun t => p + t * q) 0 q).
      { intros p q. pose proof (der_affine p q 0) as D0. eapply derivable_pt_lim_ext; [|exact D0]. intros t. cbv beta. ring. }
      pose proof (derivable_pt_lim_mult _ _ _ _ _ (Al w0 w1) Da) as D1. cbv beta in D1. rewrite g0, squash_0 in D1.
      pose proof (derivable_pt_lim_plus _ _ _ _ _ (Al c0 c1) D1) as D2.
      pose proof (derivable_pt_lim_comp _ _ _ _ _ D2 (der_squash Sigmoid _)) as D3.
      pose proof (derivable_pt_lim_mult _ _ _ _ _ (Al 1 v1) D3) as D4.
      unfold Ranalysis1.comp, plus_fct, mult_fct in D4. cbv beta in D4. rewrite g0, squash_0 in D4.
      replace (c0 + 0 * c1 + (w0 + 0 * w1) * (1 / 2)) with (c0 + w0 * (1 / 2)) in D4 by ring. rewrite Hz in D4.
      replace (v1 * z0 + slope Sigmoid z0 * (c1 + (w1 * (1 / 2) + w0 * (1 / 4 * (-30003 / 512))))) with
        (v1 * z0 + (1 + 0 * v1) * (slope Sigmoid z0 * (c1 + (w1 * (1 / 2) + (w0 + 0 * w1) * (1 / 4 * (-30003 / 512)))))) by ring.
      exact D4. }
    assert (B1 := Hbr (ln 3 - 1) (3 / 64) 2 (3 / 128) (3 / 4) (3 / 4)). assert (B2 := Hbr (1 / 2 - ln 3) (9 / 64) (-1) (9 / 128) (1 / 4) (1 / 4)).
    assert (Z1 : squash Sigmoid (ln 3 - 1 + 2 * (1 / 2)) = 3 / 4) by (replace (ln 3 - 1 + 2 * (1 / 2)) with (ln 3) by field; apply squash_ln3).
    assert (Z2 : squash Sigmoid (1 / 2 - ln 3 + -1 * (1 / 2)) = 1 / 4) by (replace (1 / 2 - ln 3 + -1 * (1 / 2)) with (- ln 3) by field; apply squash_mln3).
    specialize (B1 Z1). specialize (B2 Z2).
    pose proof (derivable_pt_lim_plus _ _ _ _ _ (derivable_pt_lim_id 0) (derivable_pt_lim_plus _ _ _ _ _ B1 B2)) as DY.
    assert (HYd : derivable_pt_lim Y 0 (1 + ((3 / 4 * (3 / 4) + slope Sigmoid (3 / 4) * (3 / 64 + (3 / 128 * (1 / 2) + 2 * (1 / 4 * (-30003 / 512))))) +
       (1 / 4 * (1 / 4) + slope Sigmoid (1 / 4) * (9 / 64 + (9 / 128 * (1 / 2) + -1 * (1 / 4 * (-30003 / 512)))))))) by exact DY.
    assert (Y0 : Y 0 = 1).
    { unfold Y. rewrite g0, squash_0. replace (ln 3 - 1 + 0 * (3 / 64) + (2 + 0 * (3 / 128)) * (1 / 2)) with (ln 3) by field.
      replace (1 / 2 - ln 3 + 0 * (9 / 64) + (-1 + 0 * (9 / 128)) * (1 / 2)) with (- ln 3) by field. rewrite squash_ln3, squash_mln3. field. }
    pose proof (der_sq 2 Y 0 _ HYd) as DS. rewrite Y0 in DS.
    destruct (increase _ _ DS) as (m & Hm & Hinc); [cbn [slope]; lra|]. cbv beta in Hinc. rewrite Y0 in Hinc.
    exists m. split; auto. intros eta n1 y1 Heta Hn1 (Hw1 & Hw2) Ey1. specialize (Hinc eta Heta).
    destruct (C66_learning_step solve _ _ _ _ _ (learn n1 (x, d)) x d (net_of_learn solve _ _ _ _ _ _ _ Hn1) Hx Hd) as (y2 & e2 & E2 & _ & Hy2 & _).
    cbv zeta in Hy2. rewrite Ey1 in E2. assert (y2 = y1) by (injection E2; auto). subst y2. clear E2.
    destruct (C66_learning_step solve _ _ _ _ _ n1 x d Hn1 Hx Hd) as (y3 & e3 & _ & _ & _ & (D & A1 & A2 & A3 & A4 & A5)).
    cbn [length Nat.sub] in *. set (wd := width 1 [1; 2]%nat) in *. set (xx := fun j => nth j x 0) in *.
    assert (wd0 : wd 0%nat = 1%nat) by reflexivity. assert (wd1 : wd 1%nat = 1%nat) by reflexivity. assert (wd2 : wd 2%nat = 2%nat) by reflexivity.
    destruct (Hw (hidden_w n1) Hw1) as (a1 & a20 & a21). fold wd in a1, a20, a21. cbn [Nat.eqb] in A4.
    assert (V : forall r c, (r < 2)%nat -> (c <= 2)%nat -> out_w n1 r c = ent [[0; 1; 1]; [0; 0; 0]] r c) by (intros r c Hr Hc; rewrite Hw2 by (rewrite ?wd2; auto); reflexivity).
    assert (W0 : forall c, (c <= 1)%nat -> hidden_w n1 0%nat 0%nat c = 0).
    { intros c Hc. rewrite Hw1 by (rewrite ?wd0, ?wd1; lia). rewrite hidden_w_nth. cbn [m_layers u_net nth l_w]. unfold ent. destruct c as [|[|c]]; [| |lia]; reflexivity. }
    assert (W1 : forall r c, (r < 2)%nat -> (c <= 1)%nat -> hidden_w n1 1%nat r c = ent [[ln 3 - 1; 2]; [1 / 2 - ln 3; -1]] r c).
    { intros r c Hr Hc. rewrite Hw1 by (rewrite ?wd1, ?wd2; lia). rewrite hidden_w_nth. reflexivity. }
    assert (He0 : PropsBackprop.comp e3 0%nat = 1).
    { rewrite A1 by lia. unfold response. rewrite wd2. cbn [sumn]. rewrite a20, a21, !V by lia. unfold ent; cbn [nth PropsBackprop.comp d]. field. }
    assert (He1 : PropsBackprop.comp e3 1%nat = 0).
    { rewrite A1 by lia. unfold response. rewrite wd2. cbn [sumn]. rewrite a20, a21, !V by lia. unfold ent; cbn [nth PropsBackprop.comp d]. field. }
    assert (D10 : D 1%nat 0%nat = 3 / 64).
    { rewrite A4 by (rewrite wd2; lia). rewrite a20. cbn [sumn]. rewrite He0, He1, !V by lia. unfold ent; cbn [nth slope]. field. }
    assert (D11 : D 1%nat 1%nat = 9 / 64).
    { rewrite A4 by (rewrite wd2; lia). rewrite a21. cbn [sumn]. rewrite He0, He1, !V by lia. unfold ent; cbn [nth slope]. field. }
    set (n2 := learn n1 (x, d)) in *.
    assert (W1' : hidden_w n2 1%nat 0%nat 0%nat = ln 3 - 1 + eta * (3 / 64) /\ hidden_w n2 1%nat 0%nat 1%nat = 2 + eta * (3 / 128) /\
                  hidden_w n2 1%nat 1%nat 0%nat = 1 / 2 - ln 3 + eta * (9 / 64) /\ hidden_w n2 1%nat 1%nat 1%nat = -1 + eta * (9 / 128)).
    { repeat split; rewrite A3 by (rewrite ?wd1, ?wd2; lia); rewrite ?D10, ?D11, W1 by lia; unfold ent; cbn [nth lead rate_of]; rewrite ?a1; field. }
    destruct W1' as (W100 & W101 & W110 & W111).
    assert (D00 : D 0%nat 0%nat = -3 / 512 + eta * (90 / 65536)).
    { rewrite A5 by (rewrite ?wd1; lia). rewrite a1, wd2. cbn [sumn]. rewrite D10, D11, W101, W111. cbn [slope]. field. }
    assert (W00 : hidden_w n2 0%nat 0%nat 0%nat = eta * (-3 / 512 + eta * (90 / 65536)) /\ hidden_w n2 0%nat 0%nat 1%nat = eta * (-3 / 512 + eta * (90 / 65536)) * 100).
    { split; rewrite A3 by (rewrite ?wd0, ?wd1; lia); rewrite W0, D00 by lia; cbn [lead rate_of activity]; [ring|]. unfold xx; cbn [nth x]; ring. }
    destruct W00 as (W000 & W001).
    assert (b1 : activity Sigmoid wd (hidden_w n2) xx 1 0%nat = squash Sigmoid (g eta)).
    { change (squash Sigmoid (hidden_w n2 0%nat 0%nat 0%nat + sumn 1 (fun j => hidden_w n2 0%nat 0%nat (S j) * xx j)) = squash Sigmoid (g eta)). f_equal.
      cbn [sumn]. rewrite W000, W001. unfold xx; cbn [nth x]. unfold g. field. }
    assert (b20 : activity Sigmoid wd (hidden_w n2) xx 2 0%nat = squash Sigmoid (ln 3 - 1 + eta * (3 / 64) + (2 + eta * (3 / 128)) * squash Sigmoid (g eta))).
    { change (squash Sigmoid (hidden_w n2 1%nat 0%nat 0%nat + sumn 1 (fun j => hidden_w n2 1%nat 0%nat (S j) * activity Sigmoid wd (hidden_w n2) xx 1 j)) = squash Sigmoid (ln 3 - 1 + eta * (3 / 64) + (2 + eta * (3 / 128)) * squash Sigmoid (g eta))).
      cbn [sumn]. rewrite b1, W100, W101. f_equal. ring. }
    assert (b21 : activity Sigmoid wd (hidden_w n2) xx 2 1%nat = squash Sigmoid (1 / 2 - ln 3 + eta * (9 / 64) + (-1 + eta * (9 / 128)) * squash Sigmoid (g eta))).
    { change (squash Sigmoid (hidden_w n2 1%nat 1%nat 0%nat + sumn 1 (fun j => hidden_w n2 1%nat 1%nat (S j) * activity Sigmoid wd (hidden_w n2) xx 1 j)) = squash Sigmoid (1 / 2 - ln 3 + eta * (9 / 64) + (-1 + eta * (9 / 128)) * squash Sigmoid (g eta))).
      cbn [sumn]. rewrite b1, W110, W111. f_equal. ring. }
    assert (HV' : out_w n2 0%nat 0%nat = eta /\ out_w n2 0%nat 1%nat = 1 + eta * (3 / 4) /\ out_w n2 0%nat 2%nat = 1 + eta * (1 / 4) /\
                  out_w n2 1%nat 0%nat = 0 /\ out_w n2 1%nat 1%nat = 0 /\ out_w n2 1%nat 2%nat = 0).
    { repeat split; rewrite A2 by (rewrite ?wd2; lia); rewrite ?He0, ?He1, V by lia; unfold ent; cbn [nth lead rate_of]; rewrite ?a20, ?a21; field. }
    destruct HV' as (V00 & V01 & V02 & V10 & V11 & V12).
    assert (Hy10 : PropsBackprop.comp y1 0%nat = Y eta).
    { rewrite Hy2 by lia. unfold response. rewrite wd2. cbn [sumn]. rewrite b20, b21, V00, V01, V02. unfold Y. ring. }
    assert (Hy11 : PropsBackprop.comp y1 1%nat = 0).
    { rewrite Hy2 by lia. unfold response. rewrite wd2. cbn [sumn]. rewrite V10, V11, V12. ring. }
    unfold sq_error. cbn [sumn]. rewrite Hy10, Hy11. unfold d. cbn [PropsBackprop.comp nth].
    replace (0 + (2 - Y eta) ^ 2 + (0 - 0) ^ 2) with ((2 - Y eta) ^ 2) by ring. replace 1 with ((2 - 1) ^ 2) by ring. exact Hinc.
  Qed.

  (** the hypotheses of the positive theorem are met *)
  Example C70_hypotheses : net_of [2]%nat 2 1 Tanh (MuNum (1 / 4)) z_net /\ vlen (VNum 3) 1 /\
    exists y, snd (net_predict [1; 2] z_net) = Ok y /\ 0 < sq_error 1 (VNum 3) y.
  Proof.
    split; [apply z_net_of|]. split; [reflexivity|].
    destruct (net_predict_ok [2]%nat 2 1 [1; 2] z_net (net_reach_ok _ _ _ _ (net_of_reach _ _ _ _ _ _ (z_net_of solve))) eq_refl) as (P1 & _ & P3 & _).
    exists (forward z_net [1; 2]). split; [exact P1|].
    pose proof (C69_output_bound solve _ _ _ _ _ _ [1; 2] _ 0%nat (z_net_of solve) eq_refl P1 ltac:(lia)) as B.
    change (width 2 [2]%nat (length [2]%nat)) with 2%nat in B. cbn [sumn] in B. unfold out_w, z_net in B. cbn [m_w nth] in B. fold z_net in B.
    rewrite (Rabs_pos_eq (1 / 2)) in B by lra. 
    unfold sq_error. cbn [sumn comp]. change (@comp (VNum 3) 0) with 3.
    set (q := comp (forward z_net [1; 2]) 0) in *. pose proof (Rle_abs (q - 1 / 2)). nra.
  Qed.
End Descent.
