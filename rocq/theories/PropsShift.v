(** Properties C50 (only the weight error matters) and C51 (superposition); exact real arithmetic. *)
From Coq Require Import Reals Lra Psatz.
From Verif Require Import Py Num Numpy Filters Registry Spec StructProofs RunProofs Reach RVec RFilter Steps RMat
  PropsStability PropsAlgebra.
Open Scope R_scope.

(** ** Specification *)
(** the output of the linear system h, added to a series *)
Definition plus_system (h : rvec) (d : rvec) (x : list rvec) : rvec := map2 (fun a r => a + Rdot h r) d x.

Section Shift.
  Variable solve : list rvec -> list rvec -> option (list rvec).
  #[local] Hint Extern 0 (Num R) => exact (RNum solve) : typeclass_instances.
  Notation obj := (obj R).

  (** the learning rules of all classes but OCNLMS read the error, not the weights *)
  Lemma learning_rule_blind (o1 o2 : obj) e x : is_OCNLMS o1 = false ->
    o_n o2 = o_n o1 -> o_mu o2 = o_mu o1 -> o_ext o2 = o_ext o1 ->
    learning_rule e x o2 = (set_ext (o_ext (fst (learning_rule e x o1))) o2, snd (learning_rule e x o1)).
  Proof.
    intros Hoc Hn Hmu Hx. unfold is_OCNLMS in Hoc. destruct o1 as [w n mu h c], o2 as [w2 n2 mu2 h2 c2].
    cbn [o_n o_mu o_ext] in *. subst n2 mu2 c2.
    unfold learning_rule, bind, get, ret, lift, modify, raise. cbn [set_ext set_w o_ext o_mu o_w o_n o_hist].
    destruct c; try discriminate Hoc; try reflexivity;
      repeat match goal with |- context [match ?m with Ok _ => _ | Err _ => _ end] => destruct m end; try reflexivity.
    destruct (_ && _)%bool; [|reflexivity]. destruct (neqb mu n0); reflexivity.
  Qed.

  Definition ext_shift (h : rvec) (a b : ext R) : Prop :=
    match a with
    | XAP order xm dm ii id ym em => exists dm2 ym2, b = XAP order xm dm2 ii id ym2 em /\ length dm2 = length dm /\
        forall j, (j < order)%nat -> nth j dm2 0 = nth j dm 0 + Rdot (column j xm) h
    | XOCNLMS _ _ _ _ _ _ => False
    | _ => b = a
    end.
  Definition shift_rel (n : nat) (h : rvec) (o1 o2 : obj) : Prop :=
    wf n o1 /\ wf n o2 /\ o_w o2 = vadd (o_w o1) h /\ o_mu o2 = o_mu o1 /\ ext_shift h (o_ext o1) (o_ext o2).

  Lemma shift_not_oc n h o1 o2 : shift_rel n h o1 o2 -> is_OCNLMS o1 = false /\ is_OCNLMS o2 = false.
  Proof.
    intros (_ & _ & _ & _ & H). unfold is_OCNLMS. destruct (o_ext o1); cbn [ext_shift] in H; try (rewrite H; auto; fail); try contradiction.
    destruct H as (a & b & -> & _). auto.
  Qed.

  Lemma shift_pred n h o1 o2 x : shift_rel n h o1 o2 -> length h = n -> length x = n ->
    pred_out o2 x = pred_out o1 x + Rdot h x.
  Proof.
    intros HR Hh Hx. destruct (shift_not_oc n h o1 o2 HR) as (A & B). destruct HR as (W1 & W2 & Hw & _).
    rewrite !(pred_out_R solve n) by auto. rewrite Hw. apply Rdot_vadd_l; destruct W1 as (L & _); congruence.
  Qed.

  Lemma vadd_swap u h v : vadd (vadd u h) v = vadd (vadd u v) h.
  Proof.
    unfold vadd. revert h v; induction u as [|a u IH]; intros [|b h] [|c v]; cbn [map2]; auto. rewrite IH. f_equal. ring.
  Qed.

  Lemma shift_step n h o1 o2 d x : shift_rel n h o1 o2 -> length h = n -> length x = n ->
    snd (adapt (d + Rdot h x) x o2) = snd (adapt d x o1) /\
    (snd (adapt d x o1) = Ok tt -> shift_rel n h (fst (adapt d x o1)) (fst (adapt (d + Rdot h x) x o2))).
  Proof.
    intros HR Hh Hl. destruct (shift_not_oc n h o1 o2 HR) as (OC1 & OC2). destruct HR as (W1 & W2 & Hw & Hmu & Hx).
    destruct (adapt_ok n o1 d x W1 Hl) as (p1 & r1 & E1 & Wp1 & _).
    destruct (adapt_ok n o2 (d + Rdot h x) x W2 Hl) as (p2 & r2 & E2 & Wp2 & _).
    pose proof W1 as (L1 & N1 & X1). pose proof W2 as (L2 & N2 & X2).
    rewrite E1, E2. cbn [fst snd].
    destruct (is_AP o1) eqn:AP1.
    - unfold is_AP in AP1. destruct (o_ext o1) as [| | | | | | | | | | | | | | |order xm dm ii id ym em] eqn:EX; try discriminate.
      cbn [ext_shift] in Hx. destruct Hx as (dm2 & ym2 & EX2 & Ld & Hd). cbn [wf_ext] in X1. destruct X1 as (Ho & Hlx & HF & Hld).
      rewrite (adapt_AP_step n o1 d x order xm dm ii id ym em W1 Hl EX) in E1.
      rewrite (adapt_AP_step n o2 _ x order xm dm2 ii id ym2 em W2 Hl EX2) in E2.
      set (P := push_x order xm x) in *.
      assert (LP : length P = n) by (apply push_x_length; auto).
      assert (FP : rowsl order P) by (apply push_x_rows; auto).
      assert (Hpush : forall j, (j < order)%nat -> nth j (push_d order dm2 (d + Rdot h x)) 0 = nth j (push_d order dm d) 0 + Rdot (column j P) h).
      { intros [|j] Hj.
        - unfold push_d. cbn [nth]. assert (Hc : column 0 P = x).
          { pose proof (transpose_push_0 order xm x Ho ltac:(congruence)) as Ht. fold P in Ht.
            destruct order as [|k]; [lia|]. cbn [transpose seq map nth] in Ht. exact Ht. }
          rewrite Hc, (Rdot_comm x h). reflexivity.
        - unfold push_d. cbn [nth]. rewrite !nth_firstn by lia. unfold P. rewrite (column_push solve) by (auto; congruence). apply Hd. lia. }
      assert (Le1 : length (push_d order dm d) = order) by (apply push_d_length; auto).
      assert (Le2 : length (push_d order dm2 (d + Rdot h x)) = order) by (apply push_d_length; auto; congruence).
      assert (He : map2 nsub (push_d order dm2 (d + Rdot h x)) (mv (transpose order P) (o_w o2))
                 = map2 nsub (push_d order dm d) (mv (transpose order P) (o_w o1))).
      { change (vsub (push_d order dm2 (d + Rdot h x)) (mv (transpose order P) (o_w o2)) = vsub (push_d order dm d) (mv (transpose order P) (o_w o1))).
        apply nth_ext0; [rewrite !(vsub_length _ _ order); rewrite ?(mv_len solve), ?(transpose_len solve); auto|]. intros j Hj.
        rewrite (vsub_length _ _ order) in Hj by (rewrite ?(mv_len solve), ?(transpose_len solve); auto).
        rewrite !nth_vsub by (rewrite (mv_len solve), (transpose_len solve); congruence).
        rewrite !(mv_nth solve), !(transpose_nth solve) by (rewrite ?(transpose_len solve); auto).
        rewrite Hpush, Hw by auto. rewrite Rdot_vadd_r by (rewrite ?(column_len solve); congruence). ring. }
      cbv zeta in E1, E2. rewrite He in E2. rewrite Hmu in E2.
      set (E := map2 nsub (push_d order dm d) _) in *. 
      match type of E1 with match ?q with _ => _ end = _ => destruct q as [G|] end.
      + apply pair_equal_spec in E1 as (<- & <-). apply pair_equal_spec in E2 as (<- & <-).
        split; [reflexivity|]. intros _. split; [exact Wp1|]. split; [exact Wp2|]. cbn [set_w set_ext o_w o_mu o_ext ext_shift].
        split; [rewrite Hw; apply vadd_swap|]. split; [exact Hmu|].
        do 2 eexists. split; [reflexivity|]. split; [congruence|exact Hpush].
      + apply pair_equal_spec in E1 as (<- & <-). apply pair_equal_spec in E2 as (<- & <-). split; [reflexivity|discriminate].
    - assert (Hx' : o_ext o2 = o_ext o1) by (unfold is_AP in AP1; destruct (o_ext o1); try exact Hx; try contradiction; discriminate).
      assert (AP2 : is_AP o2 = false) by (unfold is_AP in *; rewrite Hx'; exact AP1).
      pose proof (learning_rule_blind o1 o2 (d - Rdot (o_w o1) x) x OC1 ltac:(congruence) Hmu Hx') as Hlr.
      assert (He : d + Rdot h x - Rdot (o_w o2) x = d - Rdot (o_w o1) x).
      { rewrite Hw, Rdot_vadd_l by congruence. ring. }
      assert (A1 : adapt d x o1 = bind (learning_rule (d - Rdot (o_w o1) x) x) iadd_w o1).
      { unfold adapt; unfold bind at 1, get at 1; rewrite AP1. unfold adapt_base. unfold bind at 1.
        rewrite predict_plain by assumption. rewrite vdot_ok by congruence. reflexivity. }
      assert (A2 : adapt (d + Rdot h x) x o2 = bind (learning_rule (d - Rdot (o_w o1) x) x) iadd_w o2).
      { unfold adapt; unfold bind at 1, get at 1; rewrite AP2. unfold adapt_base. unfold bind at 1.
        rewrite predict_plain by assumption. rewrite vdot_ok by congruence. rewrite <- He. reflexivity. }
      rewrite A1 in E1. rewrite A2 in E2. unfold bind in E1, E2. rewrite Hlr in E2.
      destruct (learning_rule_ok n o1 (d - Rdot (o_w o1) x) x W1 Hl AP1)
        as [(q1 & dw & EL & Ldw & Wq & Hq & _ & Fq)|(EL & _)]; rewrite EL in E1, E2; cbn [fst snd] in E1, E2.
      + rewrite (iadd_w_ok n) in E1 by (auto; apply Wq). rewrite (iadd_w_ok n) in E2 by auto.
        apply pair_equal_spec in E1 as (<- & <-). apply pair_equal_spec in E2 as (<- & <-).
        split; [reflexivity|]. intros _. split; [exact Wp1|]. split; [exact Wp2|].
        cbn [set_w set_ext o_w o_mu o_ext] in *. destruct Fq as (_ & Fmu & Fk).
        split; [rewrite Hq, Hw; apply vadd_swap|]. split; [congruence|].
        unfold is_AP, is_OCNLMS in *. destruct (o_ext o1), (o_ext q1); try discriminate; reflexivity.
      + apply pair_equal_spec in E1 as (<- & <-). apply pair_equal_spec in E2 as (<- & <-). split; [reflexivity|discriminate].
  Qed.

  Lemma shift_trace n h : length h = n -> forall d x o1 o2, shift_rel n h o1 o2 -> rowsl n x -> length d = length x ->
    snd (adapt_all (plus_system h d x) x o2) = snd (adapt_all d x o1) /\
    (snd (adapt_all d x o1) = Ok tt ->
       shift_rel n h (fst (adapt_all d x o1)) (fst (adapt_all (plus_system h d x) x o2)) /\
       ytrace (plus_system h d x) x o2 = plus_system h (ytrace d x o1) x /\
       wtrace (plus_system h d x) x o2 = map (fun v => vadd v h) (wtrace d x o1)).
  Proof.
    intros Hh. induction d as [|d0 d IH]; intros [|x0 x] o1 o2 HR Hx Hl; try discriminate; cbn [length] in Hl.
    - cbn. split; [reflexivity|]. intros _. auto.
    - pose proof (Forall_inv Hx) as Hx0. apply Forall_inv_tail in Hx. unfold plus_system. cbn [map2 adapt_all ytrace wtrace].
      fold (plus_system h d x). unfold bind.
      destruct (shift_step n h o1 o2 d0 x0 HR Hh Hx0) as (S1 & S2).
      pose proof (shift_pred n h o1 o2 x0 HR Hh Hx0) as Hp. pose proof HR as (_ & _ & Hw & _).
      destruct (adapt d0 x0 o1) as [p1 r1]; destruct (adapt (d0 + Rdot h x0) x0 o2) as [p2 r2]. cbn [fst snd] in *. subst r2.
      destruct r1 as [[]|ex]; [|split; [reflexivity|discriminate]].
      destruct (IH x p1 p2 (S2 eq_refl) Hx ltac:(lia)) as (H1 & H2). split; [exact H1|].
      intros HO. destruct (H2 HO) as (A & B & C). split; [exact A|]. rewrite B, C, Hp, Hw. split; reflexivity.
  Qed.

  Lemma plus_system_sub h d y x : length d = length x -> length y = length x ->
    map2 Rminus (plus_system h d x) (plus_system h y x) = map2 Rminus d y.
  Proof.
    unfold plus_system. revert y x; induction d as [|a d IH]; intros [|b y] [|r x] H1 H2; try discriminate; cbn [map2]; auto.
    cbn [length] in *. rewrite IH by lia. f_equal. ring.
  Qed.

  Lemma run_shift n h o1 o2 d x : shift_rel n h o1 o2 -> length h = n -> rowsl n x -> length d = length x ->
    snd (run (plus_system h d x) x o2) =
      rmap (fun '(y, e, w) => (plus_system h y x, e, map (fun v => vadd v h) w)) (snd (run d x o1)) /\
    (forall r, snd (run d x o1) = Ok r -> o_w (fst (run (plus_system h d x) x o2)) = vadd (o_w (fst (run d x o1))) h).
  Proof.
    intros HR Hh Hx Hl. pose proof HR as (W1 & W2 & _).
    destruct x as [|x0 x'] eqn:Ex.
    { destruct d; [|discriminate]. split; [reflexivity|intros r Hr; discriminate Hr]. }
    rewrite <- Ex in *. assert (Hne : x <> []) by congruence. clear Ex x0 x'.
    assert (Hl2 : length (plus_system h d x) = length x) by (unfold plus_system; apply map2_length_eq; auto).
    destruct (shift_trace n h Hh d x o1 o2 HR Hx Hl) as (H1 & H2).
    rewrite (run_snd n o1), (run_snd n o2) by auto. rewrite H1.
    destruct (run_fst n o1 d x W1 Hx Hl Hne) as (h1 & ->). destruct (run_fst n o2 (plus_system h d x) x W2 Hx Hl2 Hne) as (h2 & ->).
    destruct (snd (adapt_all d x o1)) as [[]|]; [|split; [reflexivity|discriminate]]. cbn [rmap].
    destruct (H2 eq_refl) as (A & -> & ->). split; [|intros _ _; cbn [set_hist o_w]; apply A].
    change (@nsub R (RNum solve)) with Rminus. rewrite plus_system_sub by (auto; rewrite ytrace_length; auto). reflexivity.
  Qed.

  Lemma init_ext_shift k (kw : kwargs R) n mu x h : k <> KOCNLMS -> length h = n -> init_ext k kw n mu = Ok x -> ext_shift h x x.
  Proof.
    intros Hk Hh. destruct k; unfold init_ext; intros H; try congruence; try (injection H as <-); cbn [ext_shift]; auto.
    - do 2 eexists. split; [reflexivity|]. split; [reflexivity|]. intros j Hj.
      assert (Hc : forall o, column j (zeros2 n o : list rvec) = repeat 0 n).
      { intros o. unfold column, zeros2, zeros. clear. induction n as [|k IH]; [reflexivity|]. cbn [repeat map]. f_equal; [apply nth_repeat|exact IH]. }
      rewrite Hc, Rdot_zero_l. ring.
    - cbv zeta in H. match type of H with (if ?b then _ else _) = _ => destruct b end; [discriminate|].
      injection H as <-; reflexivity.
  Qed.

  (** *** C50.  Add a linear system h to the targets and h to the initial weights: the errors are the same, the
      outputs are raised by the system's output and all weights by h; for every class but OCNLMS. *)
  Theorem C50_only_weight_error_matters : forall rng k (kw : kwargs R) n v h (o1 o2 : obj) d x,
    k <> KOCNLMS -> rng_ok rng -> sane_kw kw -> kw_n kw = Some (Z.of_nat n) -> length h = n ->
    new_filter rng k (with_weights kw v) = Ok o1 ->
    new_filter rng k (with_weights kw (vadd v h)) = Ok o2 ->
    rows_of n x -> length d = length x ->
    snd (run (plus_system h d x) x o2) =
      rmap (fun '(y, e, w) => (plus_system h y x, e, map (fun v => vadd v h) w)) (snd (run d x o1)) /\
    (forall r, snd (run d x o1) = Ok r -> o_w (fst (run (plus_system h d x) x o2)) = vadd (o_w (fst (run d x o1))) h).
  Proof.
    intros rng k kw n v h o1 o2 d x Hk Hrng Hs Hn Hh H1 H2 Hx Hl. apply (run_shift n); auto.
    pose proof (new_filter_wf rng k (with_weights kw v) n o1 Hrng Hs Hn H1) as W1. pose proof (new_filter_wf rng k (with_weights kw (vadd v h)) n o2 Hrng Hs Hn H2) as W2.
    split; [exact W1|]. split; [exact W2|]. revert H1 H2. unfold new_filter. cbn [with_weights kw_other kw_n kw_mu kw_w].
    destruct (kw_other kw); [discriminate|].
    change (kw_given (with_weights kw (vadd v h))) with (kw_given (with_weights kw v)).
    destruct (existsb _ _); [discriminate|]. rewrite Hn.
    match goal with |- match ?m with _ => _ end = _ -> _ => destruct m as [mu|]; [|discriminate] end.
    cbn [opt]. unfold init_base. destruct (_ =? -1)%Z; [discriminate|]. unfold init_weights.
    destruct (Z.of_nat (length v) =? _)%Z; [|discriminate]. destruct (Z.of_nat (length (vadd v h)) =? _)%Z; [|discriminate].
    cbn [rmap rbind].
    replace (init_ext k (with_weights kw (vadd v h)) (Z.to_nat (Z.of_nat n)) mu)
      with (init_ext k (with_weights kw v) (Z.to_nat (Z.of_nat n)) mu) by (destruct k; reflexivity).
    destruct (init_ext k (with_weights kw v) _ mu) as [xx|] eqn:Ex; [|discriminate].
    cbn [rmap]. intros H1 H2; injection H1 as <-; injection H2 as <-. cbn [set_ext o_w o_mu o_ext].
    split; [reflexivity|]. split; [reflexivity|]. rewrite Nat2Z.id in Ex. eapply init_ext_shift; eauto.
  Qed.

  Example C50_hypotheses : exists k (kw : kwargs R) o1 o2, k <> KOCNLMS /\ sane_kw kw /\ kw_n kw = Some 2%Z /\
    new_filter rngR k (with_weights kw [3; 4]) = Ok o1 /\ new_filter rngR k (with_weights kw (vadd [3; 4] [1; 2])) = Ok o2 /\
    o_w o1 <> o_w o2 /\ is_AP o1 = true.
  Proof.
    exists KAP, (kwE 1 ws0 None None None). do 2 eexists. split; [discriminate|]. split; [split; intros ? Hs; discriminate Hs|].
    split; [reflexivity|]. split; [reflexivity|]. split; [reflexivity|]. split; [|reflexivity].
    cbn. intros H. injection H as H _. lra.
  Qed.

  (** *** C51.  Superposition *)
  Definition ext_sum (a b c : ext R) : Prop :=
    match a, b with
    | XBase, XBase | XLMS, XLMS => c = a
    | XNLMS e1, XNLMS e2 => e2 = e1 /\ c = a
    | XRLS e1 R1, XRLS e2 R2 => R2 = R1 /\ exists e3, c = XRLS e3 R1
    | XOCNLMS e1 m1 f1 mx1 md1 i1, XOCNLMS e2 m2 f2 mx2 md2 i2 =>
        e2 = e1 /\ m2 = m1 /\ f2 = f1 /\ mx2 = mx1 /\ i2 = i1 /\ c = XOCNLMS e1 m1 f1 mx1 (vadd md1 md2) i1
    | XAP o1 xm1 dm1 ii1 id1 _ _, XAP o2 xm2 dm2 ii2 id2 _ _ =>
        o2 = o1 /\ xm2 = xm1 /\ ii2 = ii1 /\ id2 = id1 /\ exists ym em, c = XAP o1 xm1 (vadd dm1 dm2) ii1 id1 ym em
    | _, _ => False
    end.
  Definition sum_rel (n : nat) (a b c : obj) : Prop :=
    wf n a /\ wf n b /\ wf n c /\ o_w c = vadd (o_w a) (o_w b) /\ o_mu b = o_mu a /\ o_mu c = o_mu a /\
    ext_sum (o_ext a) (o_ext b) (o_ext c).

  Lemma vadd_4 a b c d : vadd (vadd a b) (vadd c d) = vadd (vadd a c) (vadd b d).
  Proof.
    unfold vadd. revert b c d; induction a as [|p a IH]; intros [|q b] [|r c] [|s d]; cbn [map2]; auto. rewrite IH. f_equal. ring.
  Qed.
  Lemma vsc_plus c1 c2 v : vsc (c1 + c2) v = vadd (vsc c1 v) (vsc c2 v).
  Proof. unfold vsc, vadd. induction v as [|a v IH]; cbn [map map2]; auto. rewrite IH. f_equal. ring. Qed.
  Lemma Rdot_sum u v x n : length u = n -> length v = n -> length x = n -> Rdot (vadd u v) x = Rdot u x + Rdot v x.
  Proof. intros; apply Rdot_vadd_l; congruence. Qed.
  Lemma Rsum_vadd u v : length u = length v -> Rsum (vadd u v) = Rsum u + Rsum v.
  Proof. revert v; induction u as [|a u IH]; intros [|b v] H; try discriminate; cbn; [ring|]. unfold vadd in IH. rewrite IH by (cbn in H; lia). ring. Qed.
  Lemma vadd_len2 (u v : rvec) : length u = length v -> length (vadd u v) = length u.
  Proof. intros H. apply (vadd_length u v (length u)); auto. Qed.
  Lemma mean_vadd u v : length u = length v -> mean (vadd u v) = mean u + mean v.
  Proof.
    intros H. unfold mean. rewrite vadd_len2, <- H by auto. change (@nsum R (RNum solve)) with Rsum. rewrite Rsum_vadd by auto.
    cbn [ndiv RNum]. unfold Rdiv. ring.
  Qed.
  Lemma firstn_vadd k u v : firstn k (vadd u v) = vadd (firstn k u) (firstn k v).
  Proof. unfold vadd. revert u v; induction k as [|k IH]; intros [|a u] [|b v]; cbn [firstn map2]; auto. rewrite IH; auto. Qed.
  Lemma skipn_vadd k u v : length u = length v -> skipn k (vadd u v) = vadd (skipn k u) (skipn k v).
  Proof. unfold vadd. revert u v; induction k as [|k IH]; intros [|a u] [|b v] H; try discriminate H; cbn [skipn map2]; auto. Qed.
  Lemma vadd_app u1 v1 u2 v2 : length u1 = length v1 -> vadd (u1 ++ u2) (v1 ++ v2) = vadd u1 v1 ++ vadd u2 v2.
  Proof.
    unfold vadd. revert v1; induction u1 as [|a u1 IH]; intros [|b v1] H; try discriminate H; cbn [app map2]; auto.
    rewrite IH by (cbn in H; lia). reflexivity.
  Qed.
  Lemma delete_vadd k u v : length u = length v -> delete k (vadd u v) = vadd (delete k u) (delete k v).
  Proof.
    intros H. unfold delete. rewrite firstn_vadd, skipn_vadd by auto. symmetry. apply vadd_app.
    rewrite !firstn_length, H; reflexivity.
  Qed.
  Lemma delete_len (k : nat) (u v : rvec) : length u = length v -> length (delete k u) = length (delete k v).
  Proof. intros H. unfold delete. rewrite !app_length, !firstn_length, !skipn_length, H. reflexivity. Qed.
  Lemma set_nth_vadd k a b u v : length u = length v -> set_nth k (a + b) (vadd u v) = vadd (set_nth k a u) (set_nth k b v).
  Proof.
    unfold vadd. revert k v; induction u as [|p u IH]; intros k [|q v] H; try discriminate H; [destruct k; reflexivity|].
    destruct k; cbn [set_nth map2]; auto. rewrite IH by (cbn in H; lia). reflexivity.
  Qed.
  Lemma oc_read_sum n em mx md1 md2 idx : length md1 = length md2 ->
    oc_read n em mx (vadd md1 md2) idx =
      (fst (oc_read n em mx md1 idx) + fst (oc_read n em mx md2 idx), snd (oc_read n em mx md1 idx)) /\
    snd (oc_read n em mx md2 idx) = snd (oc_read n em mx md1 idx).
  Proof.
    intros H. unfold oc_read. destruct em; [destruct (Nat.eqb idx 0)|]; cbn [fst snd]; split; auto.
    - f_equal. cbn; ring.
    - f_equal. rewrite firstn_vadd. apply mean_vadd. rewrite !firstn_length, H; reflexivity.
    - f_equal. rewrite delete_vadd by auto. apply mean_vadd. apply delete_len; auto.
  Qed.
  Lemma oc_y_sum n w1 w2 em mx md1 md2 idx x : length md1 = length md2 -> length w1 = n -> length w2 = n -> length x = n ->
    oc_y n (vadd w1 w2) em mx (vadd md1 md2) idx x = oc_y n w1 em mx md1 idx x + oc_y n w2 em mx md2 idx x.
  Proof.
    intros H H1 H2 Hx. unfold oc_y. destruct (oc_read_sum n em mx md1 md2 idx H) as (-> & E). rewrite E. cbn [fst snd].
    pose proof (oc_read_length n em mx md1 idx) as Hr.
    change (@ndot R (RNum solve)) with Rdot.
    rewrite (Rdot_sum w1 w2 _ n) by (auto; apply vsub_length; auto). cbn [nadd RNum]. ring.
  Qed.

  Lemma sum_pred n a b c x : sum_rel n a b c -> length x = n -> pred_out c x = pred_out a x + pred_out b x.
  Proof.
    intros (W1 & W2 & W3 & Hw & Hm2 & Hm3 & HX) Hl. pose proof W1 as (L1 & _ & X1). pose proof W2 as (L2 & _ & X2).
    destruct (is_OCNLMS a) eqn:Ha.
    - unfold is_OCNLMS in Ha. destruct (o_ext a) as [| | | | | | | | | | |e1 m1 f1 mx1 md1 i1| | | | ] eqn:E1; try discriminate.
      cbn [ext_sum] in HX. destruct (o_ext b) as [| | | | | | | | | | |e2 m2 f2 mx2 md2 i2| | | | ] eqn:E2; try contradiction.
      destruct HX as (-> & -> & -> & -> & -> & E3). cbn [wf_ext] in X1, X2.
      rewrite (pred_out_OCNLMS n a x _ _ _ _ _ _ W1 Hl E1), (pred_out_OCNLMS n b x _ _ _ _ _ _ W2 Hl E2), (pred_out_OCNLMS n c x _ _ _ _ _ _ W3 Hl E3).
      rewrite Hw. apply oc_y_sum; auto. destruct X1 as (_ & _ & _ & A & _), X2 as (_ & _ & _ & B & _). congruence.
    - assert (Hb : is_OCNLMS b = false /\ is_OCNLMS c = false).
      { unfold is_OCNLMS in *. destruct (o_ext a), (o_ext b); cbn [ext_sum] in HX; try contradiction; try discriminate;
          repeat match goal with H : _ /\ _ |- _ => destruct H | H : exists _, _ |- _ => destruct H end;
          match goal with H : o_ext c = _ |- _ => rewrite H end; auto. }
      rewrite !(pred_out_R solve n) by (auto; apply Hb). rewrite Hw. apply (Rdot_sum _ _ _ n); auto.
  Qed.

  Lemma sum_step n a b c d1 d2 x : sum_rel n a b c -> length x = n ->
    snd (adapt d2 x b) = snd (adapt d1 x a) /\ snd (adapt (d1 + d2) x c) = snd (adapt d1 x a) /\
    (snd (adapt d1 x a) = Ok tt -> sum_rel n (fst (adapt d1 x a)) (fst (adapt d2 x b)) (fst (adapt (d1 + d2) x c))).
  Proof.
    intros (W1 & W2 & W3 & Hw & Hm2 & Hm3 & HX) Hl.
    pose proof W1 as (L1 & _ & X1). pose proof W2 as (L2 & _ & X2). pose proof W3 as (L3 & _ & X3).
    destruct (adapt_ok n a d1 x W1 Hl) as (p1 & r1 & E1 & Wp1 & _).
    destruct (adapt_ok n b d2 x W2 Hl) as (p2 & r2 & E2 & Wp2 & _).
    destruct (adapt_ok n c (d1 + d2) x W3 Hl) as (p3 & r3 & E3 & Wp3 & _).
    rewrite E1, E2, E3. cbn [fst snd].
    assert (He : d1 + d2 - Rdot (o_w c) x = (d1 - Rdot (o_w a) x) + (d2 - Rdot (o_w b) x)).
    { rewrite Hw, (Rdot_sum _ _ _ n) by auto. ring. }
    assert (Htb : forall ea eb ec dw1 dw2, textbook ea (o_mu a) (d1 - Rdot (o_w a) x) x = Some dw1 ->
       textbook eb (o_mu b) (d2 - Rdot (o_w b) x) x = Some dw2 -> textbook ec (o_mu c) (d1 + d2 - Rdot (o_w c) x) x = Some (vadd dw1 dw2) ->
       o_ext a = ea -> o_ext b = eb -> o_ext c = ec -> ext_sum ea eb ec ->
       r2 = r1 /\ r3 = r1 /\ (r1 = Ok tt -> sum_rel n p1 p2 p3)).
    { intros ea eb ec dw1 dw2 T1 T2 T3 Q1 Q2 Q3 HS.
      rewrite (adapt_textbook solve a d1 x dw1) in E1 by (try congruence; rewrite Q1; exact T1).
      rewrite (adapt_textbook solve b d2 x dw2) in E2 by (try congruence; rewrite Q2; exact T2).
      rewrite (adapt_textbook solve c (d1 + d2) x (vadd dw1 dw2)) in E3 by (try congruence; rewrite Q3; exact T3).
      apply pair_equal_spec in E1 as (<- & <-). apply pair_equal_spec in E2 as (<- & <-). apply pair_equal_spec in E3 as (<- & <-).
      split; [reflexivity|]. split; [reflexivity|]. intros _. split; [exact Wp1|]. split; [exact Wp2|]. split; [exact Wp3|].
      cbn [set_w o_w o_mu o_ext]. split; [rewrite Hw; apply vadd_4|]. split; [exact Hm2|]. split; [exact Hm3|]. rewrite Q1, Q2, Q3. exact HS. }
    destruct (o_ext a) as [| | | | e1 | | | | | | e1 R1 | e1 m1 f1 mx1 md1 i1 | | | | o1 xm1 dm1 ii1 id1 ym1 em1] eqn:Q1; cbn [ext_sum] in HX; try contradiction;
      destruct (o_ext b) as [| | | | e2 | | | | | | e2 R2 | e2 m2 f2 mx2 md2 i2 | | | | o2 xm2 dm2 ii2 id2 ym2 em2] eqn:Q2; try contradiction.
    - eapply (Htb XBase XBase XBase); try reflexivity; auto. cbn [textbook]. f_equal. symmetry. apply vadd_zero_r, repeat_length.
    - eapply (Htb XLMS XLMS XLMS); try reflexivity; auto. cbn [textbook]. rewrite He, Hm2, Hm3, <- vsc_plus. f_equal. f_equal. ring.
    - destruct HX as (-> & Q3). eapply (Htb (XNLMS e1) (XNLMS e1) (XNLMS e1)); try reflexivity; auto; [|split; reflexivity].
      cbn [textbook]. rewrite He, Hm2, Hm3, <- vsc_plus. f_equal. f_equal. ring.
    - destruct HX as (-> & e3 & Q3).
      destruct (neqb (o_mu a) n0) eqn:Hz.
      { rewrite (adapt_RLS_mu0 n a d1 x e1 R1 W1 Hl Q1 Hz) in E1.
        rewrite (adapt_RLS_mu0 n b d2 x e2 R1 W2 Hl Q2) in E2 by (rewrite Hm2; exact Hz).
        rewrite (adapt_RLS_mu0 n c (d1 + d2) x e3 R1 W3 Hl Q3) in E3 by (rewrite Hm3; exact Hz).
        apply pair_equal_spec in E1 as (<- & <-). apply pair_equal_spec in E2 as (<- & <-). apply pair_equal_spec in E3 as (<- & <-).
        split; [reflexivity|]. split; [reflexivity|discriminate]. }
      rewrite (adapt_RLS n a d1 x e1 R1 W1 Hl Q1 Hz) in E1.
      rewrite (adapt_RLS n b d2 x e2 R1 W2 Hl Q2) in E2 by (rewrite Hm2; exact Hz).
      rewrite (adapt_RLS n c (d1 + d2) x e3 R1 W3 Hl Q3) in E3 by (rewrite Hm3; exact Hz).
      apply pair_equal_spec in E1 as (<- & <-). apply pair_equal_spec in E2 as (<- & <-). apply pair_equal_spec in E3 as (<- & <-).
      split; [reflexivity|]. split; [reflexivity|]. intros _. split; [exact Wp1|]. split; [exact Wp2|]. split; [exact Wp3|].
      cbn [set_w set_ext o_w o_mu o_ext ext_sum]. rewrite Hm2, Hm3.
      split; [|split; [reflexivity|split; [reflexivity|split; [reflexivity|eexists; reflexivity]]]].
      assert (Hm : forall e v, map (fun z : R => nmul z e) v = vsc e v) by (intros; apply map_ext; intros; cbn; ring). rewrite !Hm.
      change (nsub (d1 + d2) (ndot (o_w c) x)) with (d1 + d2 - Rdot (o_w c) x). rewrite He, vsc_plus.
      change (map2 nadd) with vadd. rewrite Hw. apply vadd_4.
    - destruct HX as (-> & -> & -> & -> & -> & Q3). cbn [wf_ext] in X1, X2.
      destruct X1 as (Hm & _ & _ & Hld1 & Hi), X2 as (_ & _ & _ & Hld2 & _).
      assert (Hld : length md1 = length md2) by congruence.
      rewrite (adapt_OCNLMS n a d1 x _ _ _ _ _ _ W1 Hl Q1) in E1.
      rewrite (adapt_OCNLMS n b d2 x _ _ _ _ _ _ W2 Hl Q2) in E2.
      rewrite (adapt_OCNLMS n c (d1 + d2) x _ _ _ _ _ _ W3 Hl Q3) in E3.
      apply pair_equal_spec in E1 as (<- & <-). apply pair_equal_spec in E2 as (<- & <-). apply pair_equal_spec in E3 as (<- & <-).
      split; [reflexivity|]. split; [reflexivity|]. intros _. split; [exact Wp1|]. split; [exact Wp2|]. split; [exact Wp3|].
      clear Wp1 Wp2 Wp3. cbn [set_w set_ext o_w o_mu o_ext ext_sum]. rewrite Hm2, Hm3, Hw.
      rewrite !oc_y_sum by auto.
      set (y1 := oc_y n (o_w a) f1 mx1 md1 i1 x). set (y2 := oc_y n (o_w b) f1 mx1 md2 i1 x).
      set (j := oc_idx m1 i1). set (f := oc_em m1 f1 i1). set (mx := set_nth j x mx1).
      destruct (oc_read_sum n f mx md1 md2 j Hld) as (Hrd & Hrd2). rewrite Hrd, Hrd2. cbn [fst snd].
      set (z1 := oc_y n (o_w a) f mx md1 j x). set (z2 := oc_y n (o_w b) f mx md2 j x). set (dx := map2 nsub x _).
      change (@nadd R (RNum solve)) with Rplus. change (@nsub R (RNum solve)) with Rminus. change (@nmul R (RNum solve)) with Rmult.
      change (@vscale R (RNum solve)) with vsc. change (map2 Rplus) with vadd.
      split; [|split; [reflexivity|split; [reflexivity|repeat (split; [reflexivity|])]]].
      + set (q := ndiv _ _). replace (q * (d1 + d2 - (y1 + y2))) with (q * (d1 - y1) + q * (d2 - y2)) by ring.
        rewrite vsc_plus. apply vadd_4.
      + f_equal. replace (d1 + d2 - (y1 + y2) + (z1 + z2)) with ((d1 - y1 + z1) + (d2 - y2 + z2)) by ring.
        apply set_nth_vadd; auto.
    - destruct HX as (-> & -> & -> & -> & ym3 & em3 & Q3). cbn [wf_ext] in X1, X2.
      destruct X1 as (Ho & Hlx & HF & Hld1), X2 as (_ & _ & _ & Hld2).
      rewrite (adapt_AP_step n a d1 x _ _ _ _ _ _ _ W1 Hl Q1) in E1.
      rewrite (adapt_AP_step n b d2 x _ _ _ _ _ _ _ W2 Hl Q2) in E2.
      rewrite (adapt_AP_step n c (d1 + d2) x _ _ _ _ _ _ _ W3 Hl Q3) in E3. cbv zeta in E1, E2, E3.
      set (P := push_x o1 xm1 x) in *.
      assert (LP : length P = n) by (apply push_x_length; auto).
      assert (FP : rowsl o1 P) by (apply push_x_rows; auto).
      assert (Hpd : push_d o1 (vadd dm1 dm2) (d1 + d2) = vadd (push_d o1 dm1 d1) (push_d o1 dm2 d2)).
      { unfold push_d. rewrite firstn_vadd. reflexivity. }
      assert (HT : shape o1 n (transpose o1 P)) by (apply transpose_shape; auto).
      assert (Hy : mv (transpose o1 P) (o_w c) = vadd (mv (transpose o1 P) (o_w a)) (mv (transpose o1 P) (o_w b))).
      { rewrite Hw. apply (mv_vadd solve o1 n); auto. }
      assert (Hv : forall p q r s : rvec, vsub (vadd p q) (vadd r s) = vadd (vsub p r) (vsub q s)).
      { unfold vsub, vadd. induction p as [|p0 p IH]; intros [|q0 q] [|r0 r] [|s0 s]; cbn [map2]; auto. rewrite IH. f_equal. ring. }
      rewrite Hpd, Hy in E3. change (map2 nsub) with vsub in E1, E2, E3. rewrite Hv in E3.
      set (v1 := vsub (push_d o1 dm1 d1) _) in *. set (v2 := vsub (push_d o1 dm2 d2) _) in *.
      assert (Lv1 : length v1 = o1) by (apply vsub_length; [apply push_d_length; auto|rewrite (mv_len solve); apply HT]).
      assert (Lv2 : length v2 = o1) by (apply vsub_length; [apply push_d_length; auto|rewrite (mv_len solve); apply HT]).
      match type of E1 with match ?q with _ => _ end = _ => destruct q as [G|] eqn:HG end.
      2:{ apply pair_equal_spec in E1 as (<- & <-). apply pair_equal_spec in E2 as (<- & <-). apply pair_equal_spec in E3 as (<- & <-).
          split; [reflexivity|]. split; [reflexivity|discriminate]. }
      assert (Hrow : forall u r1 r2, length r1 = length r2 -> Rdot u (vadd r1 r2) = Rdot u r1 + Rdot u r2).
      { clear. unfold vadd. induction u as [|p u IH]; intros [|q r1] [|s r2] H; try discriminate H; cbn [map2 Rdot]; try ring.
        rewrite IH by (cbn in H; lia). ring. }
      assert (Hmv : forall (A : rmat) u w, length u = length w -> mv A (vadd u w) = vadd (mv A u) (mv A w)).
      { clear - Hrow. intros A u w H. unfold mv. induction A as [|r A IH]; [reflexivity|]. cbn [map]. unfold vadd in *. cbn [map2]. rewrite <- IH.
        f_equal. apply Hrow; auto. }
      apply pair_equal_spec in E1 as (<- & <-). apply pair_equal_spec in E2 as (<- & <-). apply pair_equal_spec in E3 as (<- & <-).
      split; [reflexivity|]. split; [reflexivity|]. intros _. split; [exact Wp1|]. split; [exact Wp2|]. split; [exact Wp3|].
      clear Wp1 Wp2 Wp3. cbn [set_w set_ext o_w o_mu o_ext ext_sum]. rewrite Hm2, Hm3, Hw.
      split; [|split; [reflexivity|split; [reflexivity|repeat (split; [reflexivity|]); do 2 eexists; reflexivity]]].
      rewrite !Hmv by (rewrite ?(mv_len solve); congruence). change (@vscale R (RNum solve)) with vsc. rewrite vsc_vadd.
      change (map2 nadd) with vadd. apply vadd_4.
  Qed.

  Lemma sum_trace n : forall d1 d2 x a b c, sum_rel n a b c -> rowsl n x -> length d1 = length x -> length d2 = length x ->
    snd (adapt_all d2 x b) = snd (adapt_all d1 x a) /\ snd (adapt_all (vadd d1 d2) x c) = snd (adapt_all d1 x a) /\
    (snd (adapt_all d1 x a) = Ok tt ->
       sum_rel n (fst (adapt_all d1 x a)) (fst (adapt_all d2 x b)) (fst (adapt_all (vadd d1 d2) x c)) /\
       ytrace (vadd d1 d2) x c = vadd (ytrace d1 x a) (ytrace d2 x b) /\
       wtrace (vadd d1 d2) x c = map2 vadd (wtrace d1 x a) (wtrace d2 x b)).
  Proof.
    induction d1 as [|p d1 IH]; intros [|q d2] [|x0 x] a b c HR Hx Hl1 Hl2; try discriminate; cbn [length] in Hl1, Hl2.
    - cbn. auto.
    - pose proof (Forall_inv Hx) as Hx0. apply Forall_inv_tail in Hx.
      change (vadd (p :: d1) (q :: d2)) with ((p + q) :: vadd d1 d2). cbn [adapt_all ytrace wtrace]. unfold bind.
      destruct (sum_step n a b c p q x0 HR Hx0) as (S1 & S2 & S3).
      pose proof (sum_pred n a b c x0 HR Hx0) as Hp. pose proof HR as (_ & _ & _ & Hw & _).
      destruct (adapt p x0 a) as [a1 r1], (adapt q x0 b) as [b1 r2], (adapt (p + q) x0 c) as [c1 r3]. cbn [fst snd] in *. subst r2 r3.
      destruct r1 as [[]|ex]; [|split; [reflexivity|split; [reflexivity|discriminate]]].
      destruct (IH d2 x a1 b1 c1 (S3 eq_refl) Hx ltac:(lia) ltac:(lia)) as (H1 & H2 & H3). split; [exact H1|]. split; [exact H2|].
      intros HO. destruct (H3 HO) as (A & B & C). split; [exact A|]. rewrite B, C, Hp, Hw. split; reflexivity.
  Qed.

  (** *** C51: the filters whose update is linear in the error superpose: from the sum of the initial weights and the
      sum of the targets they compute the sums of outputs, errors and weight histories *)
  Theorem C51_superposition : forall rng k (kw : kwargs R) n v1 v2 (o1 o2 o3 : obj) d1 d2 x y1 e1 w1 y2 e2 w2,
    In k [KLMS; KNLMS; KRLS; KAP; KOCNLMS] -> rng_ok rng -> sane_kw kw -> kw_n kw = Some (Z.of_nat n) ->
    new_filter rng k (with_weights kw v1) = Ok o1 -> new_filter rng k (with_weights kw v2) = Ok o2 ->
    new_filter rng k (with_weights kw (vadd v1 v2)) = Ok o3 ->
    rows_of n x ->
    snd (run d1 x o1) = Ok (y1, e1, w1) -> snd (run d2 x o2) = Ok (y2, e2, w2) ->
    snd (run (vadd d1 d2) x o3) = Ok (vadd y1 y2, vadd e1 e2, map2 vadd w1 w2) /\
    o_w (fst (run (vadd d1 d2) x o3)) = vadd (o_w (fst (run d1 x o1))) (o_w (fst (run d2 x o2))).
  Proof.
    intros rng k kw n v1 v2 o1 o2 o3 d1 d2 x y1 e1 w1 y2 e2 w2 Hk Hrng Hs Hn H1 H2 H3 Hx R1 R2.
    pose proof (new_filter_wf rng k (with_weights kw v1) n o1 Hrng Hs Hn H1) as W1.
    pose proof (new_filter_wf rng k (with_weights kw v2) n o2 Hrng Hs Hn H2) as W2.
    pose proof (new_filter_wf rng k (with_weights kw (vadd v1 v2)) n o3 Hrng Hs Hn H3) as W3.
    assert (HR : sum_rel n o1 o2 o3).
    { split; [exact W1|]. split; [exact W2|]. split; [exact W3|]. revert H1 H2 H3. unfold new_filter. cbn [with_weights kw_other kw_n kw_mu kw_w].
      destruct (kw_other kw); [discriminate|].
      change (kw_given (with_weights kw (vadd v1 v2))) with (kw_given (with_weights kw v1)).
      change (kw_given (with_weights kw v2)) with (kw_given (with_weights kw v1)).
      destruct (existsb _ _); [discriminate|]. rewrite Hn.
      match goal with |- match ?m with _ => _ end = _ -> _ => destruct m as [mu|]; [|discriminate] end.
      cbn [opt]. unfold init_base. destruct (_ =? -1)%Z; [discriminate|]. unfold init_weights.
      destruct (Z.of_nat (length v1) =? _)%Z; [|discriminate]. destruct (Z.of_nat (length v2) =? _)%Z; [|discriminate].
      destruct (Z.of_nat (length (vadd v1 v2)) =? _)%Z; [|discriminate]. cbn [rmap rbind].
      replace (init_ext k (with_weights kw (vadd v1 v2)) (Z.to_nat (Z.of_nat n)) mu)
        with (init_ext k (with_weights kw v1) (Z.to_nat (Z.of_nat n)) mu) by (destruct k; reflexivity).
      replace (init_ext k (with_weights kw v2) (Z.to_nat (Z.of_nat n)) mu)
        with (init_ext k (with_weights kw v1) (Z.to_nat (Z.of_nat n)) mu) by (destruct k; reflexivity).
      destruct (init_ext k (with_weights kw v1) _ mu) as [xx|] eqn:Ex; [|discriminate].
      cbn [rmap]. intros H1 H2 H3; injection H1 as <-; injection H2 as <-; injection H3 as <-. cbn [set_ext o_w o_mu o_ext].
      split; [reflexivity|]. split; [reflexivity|]. split; [reflexivity|]. rewrite Nat2Z.id in Ex.
      assert (Hz : forall m, vadd (zeros m) (zeros m) = zeros m) by (intros m; apply vadd_zero_r, repeat_length).
      destruct Hk as [<-|[<-|[<-|[<-|[<-|[]]]]]]; unfold init_ext in Ex.
      - injection Ex as <-. reflexivity.
      - injection Ex as <-. split; reflexivity.
      - cbv zeta in Ex. match type of Ex with (if ?b then _ else _) = _ => destruct b end; [discriminate|]. injection Ex as <-.
        split; [reflexivity|eexists; reflexivity].
      - injection Ex as <-. cbn [ext_sum]. repeat (split; [reflexivity|]). rewrite Hz. do 2 eexists. reflexivity.
      - injection Ex as <-. cbn [ext_sum]. repeat (split; [reflexivity|]). rewrite Hz. reflexivity. }
    assert (Hl1 : length d1 = length x).
    { destruct (Nat.eq_dec (length d1) (length x)); auto. rewrite run_bad_length in R1 by assumption. discriminate. }
    assert (Hl2 : length d2 = length x).
    { destruct (Nat.eq_dec (length d2) (length x)); auto. rewrite run_bad_length in R2 by assumption. discriminate. }
    assert (Hne : x <> []) by (intros ->; destruct d1; [discriminate R1|discriminate Hl1]).
    assert (Hl3 : length (vadd d1 d2) = length x) by (apply vadd_length; auto).
    destruct (sum_trace n d1 d2 x o1 o2 o3 HR Hx Hl1 Hl2) as (T1 & T2 & T3).
    rewrite (run_snd n o1 d1 x W1 Hx Hl1 Hne) in R1. rewrite (run_snd n o2 d2 x W2 Hx Hl2 Hne) in R2.
    rewrite (run_snd n o3 (vadd d1 d2) x W3 Hx Hl3 Hne).
    destruct (run_fst n o1 d1 x W1 Hx Hl1 Hne) as (h1 & ->). destruct (run_fst n o2 d2 x W2 Hx Hl2 Hne) as (h2 & ->).
    destruct (run_fst n o3 (vadd d1 d2) x W3 Hx Hl3 Hne) as (h3 & ->).
    rewrite T2. rewrite T1 in R2. destruct (snd (adapt_all d1 x o1)) as [[]|]; [|discriminate R1].
    destruct (T3 eq_refl) as (A & B & C). cbn [rmap] in *. injection R1 as <- <- <-. injection R2 as <- <- <-.
    rewrite B, C. split; [|cbn [set_hist o_w]; apply A].
    f_equal. f_equal. f_equal. change (map2 nsub) with vsub.
    generalize (ytrace d1 x o1) as u, (ytrace d2 x o2) as v. clear. unfold vsub, vadd.
    revert d2; induction d1 as [|p d1 IH]; intros [|q d2] [|u0 u] [|v0 v]; cbn [map2]; auto. rewrite IH. f_equal. ring.
  Qed.

  Example C51_hypotheses : exists k (kw : kwargs R) (o1 o2 o3 p1 p2 : obj) d1 d2 y1 e1 w1 y2 e2 w2,
    In k [KLMS; KNLMS; KRLS; KAP; KOCNLMS] /\ sane_kw kw /\ kw_n kw = Some 2%Z /\
    new_filter rngR k (with_weights kw [3; 4]) = Ok o1 /\ new_filter rngR k (with_weights kw [1; 2]) = Ok o2 /\
    new_filter rngR k (with_weights kw (vadd [3; 4] [1; 2])) = Ok o3 /\ rows_of 2 xs0 /\
    run d1 xs0 o1 = (p1, Ok (y1, e1, w1)) /\ run d2 xs0 o2 = (p2, Ok (y2, e2, w2)) /\ d1 <> d2.
  Proof.
    assert (HN : forall w : rvec, length w = 2%nat -> exists o, new_filter rngR KNLMS (with_weights (kwE 1 ws0 (Some 1) None None) w) = Ok o /\ reachable 2 o /\ (forall ex, ~ soft_exn o ex)).
    { intros w Hw. destruct (new_filter rngR KNLMS (with_weights (kwE 1 ws0 (Some 1) None None) w)) as [o|] eqn:E.
      - exists o. split; [reflexivity|]. split; [apply (kwE_reachable0 solve KNLMS 1 w (Some 1) None o); exact E|].
        revert E. unfold new_filter. cbn. rewrite Hw. cbn. intros [= <-] ex. cbn. auto.
      - exfalso. revert E. unfold new_filter. cbn. rewrite Hw. cbn. discriminate. }
    destruct (HN [3; 4] eq_refl) as (o1 & N1 & Q1 & S1). destruct (HN [1; 2] eq_refl) as (o2 & N2 & Q2 & S2).
    destruct (HN (vadd [3; 4] [1; 2]) eq_refl) as (o3 & N3 & _ & _).
    destruct (run_exists solve 2 o1 ds0 xs0 Q1 xs0_rows eq_refl ltac:(discriminate) S1) as (p1 & y1 & e1 & w1 & R1).
    destruct (run_exists solve 2 o2 [1; 2] xs0 Q2 xs0_rows eq_refl ltac:(discriminate) S2) as (p2 & y2 & e2 & w2 & R2).
    exists KNLMS, (kwE 1 ws0 (Some 1) None None), o1, o2, o3, p1, p2, ds0, [1; 2], y1, e1, w1, y2, e2, w2.
    split; [cbn; auto|]. split; [split; intros ? Hs; discriminate Hs|]. split; [reflexivity|].
    do 3 (split; [assumption|]). split; [exact xs0_rows|]. split; [exact R1|]. split; [exact R2|].
    unfold ds0. intros H. injection H as H _. lra.
  Qed.
End Shift.
