(** Property C26, quantitative part: what the OCNLMS filter subtracts from its inputs (exact real arithmetic),
    and the memory of size 1 (binary64 arithmetic, see the end of the file). *)
From Coq Require Import Reals Lra Psatz QArith Permutation.
From Verif Require Import Py Num NumQ Numpy Filters Registry Spec StructProofs RunProofs Reach RVec RFilter Steps RMat
  PropsRegistry PropsStability PropsRun PropsAlgebra PropsAPMem History PropsOCNLMS PropsSymmetry.
Open Scope R_scope.

Section Props.
  Variable solve : list rvec -> list rvec -> option (list rvec).
  #[local] Hint Extern 0 (Num R) => exact (RNum solve) : typeclass_instances.
  Notation obj := (obj R).

  (** ** Specification *)
  (** every sample learned had the input vector c, and no separate prediction was asked for *)
  Definition constant_input (c : rvec) (evs : list (event R)) : Prop :=
    Forall (fun ev => match ev with Learned _ x => x = c | Predicted _ => False end) evs.

  (** the average of a list of vectors of n numbers *)
  Definition average (n : nat) (l : list rvec) : rvec :=
    map (fun j => Rsum (map (fun r => nth j r 0) l) / INR (length l)) (seq 0 n).

  Lemma mean_R (v : rvec) : mean v = Rsum v / INR (length v).
  Proof. unfold mean, nofnat. cbn. rewrite <- INR_IZR_INZ. reflexivity. Qed.
  Lemma mean0_average n (A : list rvec) : mean0 n A = average n A.
  Proof.
    unfold mean0, average, transpose. rewrite map_map. apply map_ext; intros j. rewrite mean_R.
    unfold column. rewrite map_length. reflexivity.
  Qed.

  (** a list that is alternately 0 and a *)
  Lemma Rsum_alternate a m : forall v, length v = (2 * m)%nat ->
    (forall i, (i < 2 * m)%nat -> nth i v 0 = if Nat.even i then 0 else a) -> Rsum v = INR m * a.
  Proof.
    induction m as [|m IH]; intros v Hl Hv.
    - destruct v; [cbn; ring|cbn in Hl; lia].
    - destruct v as [|p [|q v]]; cbn in Hl; try lia.
      pose proof (Hv 0%nat ltac:(lia)) as H0. pose proof (Hv 1%nat ltac:(lia)) as H1. cbn in H0, H1. subst p q.
      cbn [Rsum]. rewrite (IH v); [rewrite S_INR; ring|lia|].
      intros i Hi. specialize (Hv (S (S i)) ltac:(lia)). exact Hv.
  Qed.

  Lemma constant_no_prediction c evs : constant_input c evs -> no_prediction evs.
  Proof. apply Forall_impl. intros [x|d x]; auto. Qed.
  Lemma constant_inputs c evs j : constant_input c evs -> (j < length evs)%nat -> nth j (inputs evs) [] = c.
  Proof.
    revert j; induction evs as [|[x|d x] evs IH]; intros j H Hj; [cbn in Hj; lia|inversion H; contradiction|].
    destruct j as [|j].
    - exact (Forall_inv H).
    - cbn. apply IH; [exact (Forall_inv_tail H)|cbn in Hj; lia].
  Qed.
  Lemma constant_written c mem i : forall evs c0 acc j, constant_input c evs -> (j < length evs)%nat ->
    ((c0 + 2 * j + 1) mod mem = i)%nat -> last_written mem i c0 evs acc = Some c.
  Proof.
    induction evs as [|[x|d x] evs IH]; intros c0 acc j Hc Hj Hi; [cbn in Hj; lia|inversion Hc; contradiction|].
    pose proof (Forall_inv Hc) as Hx. cbv beta iota in Hx. subst x. cbn [last_written].
    destruct j as [|j].
    - replace (c0 + 2 * 0 + 1)%nat with (c0 + 1)%nat in Hi by lia. apply Nat.eqb_eq in Hi. rewrite Hi.
      pose proof (Forall_inv_tail Hc) as Hc'. clear - Hc'. generalize (c0 + 2)%nat.
      induction evs as [|[y|d y] evs IH]; intros k; [reflexivity|inversion Hc'; contradiction|].
      pose proof (Forall_inv Hc') as Hy. cbv beta iota in Hy. subst y. cbn [last_written].
      destruct (_ =? _)%nat; apply IH; exact (Forall_inv_tail Hc').
    - apply (IH _ _ j); [exact (Forall_inv_tail Hc)|cbn in Hj; lia|]. rewrite <- Hi. f_equal. lia.
  Qed.

  (** ** C26 *)
  (** With an even memory size (the default is 100), after mem/2 or more samples with the constant input c the
      filter subtracts c/2, not c, from its input *)
  Theorem C26_mean_halved : forall rng (kw : kwargs R) n (o : obj) ps (c : rvec),
    rng_ok rng -> sane_kw kw -> kw_n kw = Some (Z.of_nat n) -> new_filter rng KOCNLMS kw = Ok o ->
    Forall (op_shape n) ps -> length c = n -> constant_input c (events_all ps o) ->
    let mem := match kw_mem kw with Some m => m | None => 100%nat end in
    Nat.even mem = true -> (mem <= 2 * length (events_all ps o))%nat ->
    exists m_d, forall x, length x = n ->
      snd (predict x (exec_all ps o)) = Ok (Rdot (o_w (exec_all ps o)) (vsub x (vsc (/ 2) c)) + m_d).
  Proof.
    intros rng kw n o ps c Hrng Hkw Hn Ho HF Hlc Hc mem Hev Hlen.
    destruct (oc_history rng kw n o ps Hrng Hkw Hn Ho HF) as (Hwf & eps & _ & HM). fold mem in HM.
    set (evs := events_all ps o) in *. pose proof (constant_no_prediction c evs Hc) as Hno.
    destruct (o_ext (exec_all ps o)) as [| | | | | | | | | | | eps' mem' em mx md idx | | | |] eqn:E; try contradiction.
    destruct HM as (-> & -> & -> & -> & HS). rewrite no_pred_ticks in * by exact Hno.
    pose proof Hwf as (_ & _ & Hx). rewrite E in Hx. destruct Hx as (Hm1 & Hlx & _).
    eexists. intros x Hlx'.
    rewrite (predict_OCNLMS n _ x _ _ _ _ _ _ Hwf Hlx' E). cbn [snd]. f_equal. unfold oc_y, oc_read.
    replace (2 * length evs <? mem)%nat with false by (symmetry; apply Nat.ltb_ge; lia).
    cbn [fst snd].
    assert (Hmean : mean0 n mx = vsc (/ 2) c).
    { rewrite mean0_average. unfold average. apply (nth_ext _ _ 0 0); rewrite map_length, seq_length; [rewrite vsc_length; auto|].
      intros j Hj. rewrite (nth_indep _ 0 ((fun j => Rsum (map (fun r => nth j r 0) mx) / INR (length mx)) 0%nat)) by (rewrite map_length, seq_length; auto).
      rewrite (map_nth (fun j => Rsum (map (fun r => nth j r 0) mx) / INR (length mx))), seq_nth by auto. cbn [plus].
      unfold vsc. rewrite (nth_indep _ 0 (/ 2 * 0)) by (rewrite map_length; lia). rewrite (map_nth (Rmult (/ 2))).
      apply Nat.even_spec in Hev as (m & Hm).
      rewrite (Rsum_alternate (nth j c 0) m).
      - rewrite Hlx, Hm, mult_INR. cbn [INR]. field. apply not_0_INR. lia.
      - rewrite map_length; lia.
      - intros i Hi. rewrite (nth_indep _ 0 (nth j [] 0)) by (rewrite map_length; lia). rewrite (map_nth (fun r => nth j r 0)).
        destruct (HS i ltac:(lia)) as (-> & _). destruct (Nat.even i) eqn:Ei.
        + rewrite (no_pred_even mem i); auto; [|apply Nat.even_spec; exists m; auto]. apply nth_repeat.
        + assert (Hod : Nat.odd i = true) by (unfold Nat.odd; rewrite Ei; reflexivity).
          apply Nat.odd_spec in Hod as (p & Hp).
          rewrite (constant_written c mem i evs 0 None p); auto; [lia|]. rewrite Nat.mod_small by lia. lia. }
    rewrite Hmean. reflexivity.
  Qed.

  (** With an odd memory size and only run/adapt calls, after mem samples the filter subtracts the average of the
      last mem inputs, as documented *)
  Theorem C26_odd_memory_mean : forall rng (kw : kwargs R) n (o : obj) ps,
    rng_ok rng -> sane_kw kw -> kw_n kw = Some (Z.of_nat n) -> new_filter rng KOCNLMS kw = Ok o ->
    Forall (op_shape n) ps -> no_prediction (events_all ps o) ->
    let mem := match kw_mem kw with Some m => m | None => 100%nat end in
    let xs := inputs (events_all ps o) in
    Nat.odd mem = true -> (mem <= length xs)%nat ->
    exists m_d, forall x, length x = n ->
      snd (predict x (exec_all ps o)) =
      Ok (Rdot (o_w (exec_all ps o)) (vsub x (average n (skipn (length xs - mem) xs))) + m_d).
  Proof.
    intros rng kw n o ps Hrng Hkw Hn Ho HF Hno mem xs Hodd Hlen.
    destruct (C26_odd_memory_holds_last_inputs rng kw n o ps Hrng Hkw Hn Ho HF Hno Hodd Hlen) as (eps & mx & md & idx & E & HP).
    destruct (oc_history rng kw n o ps Hrng Hkw Hn Ho HF) as (Hwf & _).
    fold mem xs in E, HP. eexists. intros x Hl.
    rewrite (predict_OCNLMS n _ x _ _ _ _ _ _ Hwf Hl E). cbn [snd]. f_equal. unfold oc_y, oc_read. cbn [fst snd].
    assert (Hm : mean0 n mx = average n (skipn (length xs - mem) xs)).
    { rewrite mean0_average. unfold average. apply map_ext; intros j. rewrite (Permutation_length HP). f_equal.
      apply Rsum_perm. apply Permutation_map. exact HP. }
    rewrite Hm. reflexivity.
  Qed.

  (** The documented independence of the mean value of the input does not hold, not even after a transient: *)
  Definition oc1_kw : kwargs R :=
    mkKw (Some 1%Z) (Some 0) (Some (WVec [1])) (Some 1) None None None None None None (Some 2%nat) false.
  Definition oc1 (em : bool) (c s : R) : obj :=
    mkObj [1] 1 0 None (XOCNLMS 1 2 em [[0]; [c]] [0; s] 0).
  Lemma oc1_new : new_filter rngR KOCNLMS oc1_kw = Ok (oc1 true 0 0).
  Proof. reflexivity. Qed.
  Lemma oc1_reachable : reachable 1 (oc1 true 0 0).
  Proof.
    apply (reach_new 1 rngR KOCNLMS oc1_kw); auto using rngR_ok, oc1_new. split; [intros m [= <-]; lia|discriminate].
  Qed.
  Lemma oc1_wf em c s : wf 1 (oc1 em c s).
  Proof. repeat split; cbn; repeat constructor. Qed.

  Lemma oc1_first c : adapt 0 [c] (oc1 true 0 0) = (oc1 false c (- c / 2), Ok tt).
  Proof.
    rewrite (adapt_OCNLMS 1 _ 0 [c] 1 2 true [[0]; [0]] [0; 0] 0 (oc1_wf true 0 0) eq_refl eq_refl). cbv zeta.
    unfold oc1, set_w, set_ext. f_equal. cbn -[INR IZR]. f_equal.
    - f_equal. unfold Rdiv. ring.
    - f_equal. f_equal. f_equal. unfold mean, nofnat. cbn -[INR IZR Rdiv]. cbn [Z.of_nat Pos.of_succ_nat Pos.succ]. field.
  Qed.
  Lemma oc1_next c s : adapt 0 [c] (oc1 false c s) = (oc1 false c (- s), Ok tt).
  Proof.
    rewrite (adapt_OCNLMS 1 _ 0 [c] 1 2 false [[0]; [c]] [0; s] 0 (oc1_wf false c s) eq_refl eq_refl). cbv zeta.
    unfold oc1, set_w, set_ext. f_equal. cbn -[INR IZR]. f_equal.
    - f_equal. unfold Rdiv. ring.
    - f_equal. f_equal. f_equal. unfold mean, nofnat. cbn -[INR IZR Rdiv]. cbn [Z.of_nat Pos.of_succ_nat Pos.succ]. field.
  Qed.

  Fixpoint flip (k : nat) (a : R) : R := match k with O => a | S k' => - flip k' a end.
  Lemma flip_shift k a : flip k (- a) = - flip k a.
  Proof. induction k as [|k IH]; cbn; [reflexivity|rewrite IH; reflexivity]. Qed.
  Lemma flip_even k a : flip k a = if Nat.even k then a else - a.
  Proof.
    induction k as [|k IH]; [reflexivity|]. rewrite Nat.even_succ. unfold Nat.odd. cbn [flip]. rewrite IH.
    destruct (Nat.even k); cbn; ring.
  Qed.
  Lemma oc1_steps c k : forall s, fst (adapt_all (repeat 0 k) (repeat [c] k) (oc1 false c s)) = oc1 false c (flip k s).
  Proof.
    induction k as [|k IH]; intros s; [reflexivity|]. cbn [repeat adapt_all]. unfold bind. rewrite oc1_next, IH.
    rewrite flip_shift. reflexivity.
  Qed.
  Lemma firstn_repeat_min {A} (a : A) k N : (k <= N)%nat -> firstn k (repeat a N) = repeat a k.
  Proof. revert N; induction k as [|k IH]; intros [|N] H; cbn; try reflexivity; try lia. rewrite IH by lia. reflexivity. Qed.

  (** a filter whose error never stops depending on a constant offset c of the input: e = -c, 0, -c, 0, ... *)
  Theorem C26_offset_forgotten_refuted : exists o : obj, reachable 1 o /\ is_OCNLMS o = true /\
    forall (c : R) (N : nat), (1 <= N)%nat -> exists y e w,
      snd (run (repeat 0 N) (repeat [c] N) o) = Ok (y, e, w) /\
      forall k, (k < N)%nat -> nth k e 0 = if Nat.even k then - c else 0.
  Proof.
    exists (oc1 true 0 0). split; [exact oc1_reachable|]. split; [reflexivity|]. intros c N HN.
    assert (Hrows : rows_of 1 (repeat [c] N)) by (apply Forall_forall; intros r Hr; apply repeat_spec in Hr; subst r; reflexivity).
    assert (Hne : repeat [c] N <> []) by (destruct N; [lia|discriminate]).
    assert (HL : length (repeat 0 N) = length (repeat [c] N)) by (rewrite !repeat_length; reflexivity).
    destruct (C07_run_total 1 (oc1 true 0 0) (repeat 0 N) (repeat [c] N) oc1_reachable Hrows HL Hne)
      as [(y & e & w & E & _)|(ex & _ & Hs)]; [|contradiction].
    exists y, e, w. split; [exact E|]. intros k Hk.
    destruct (run (repeat 0 N) (repeat [c] N) (oc1 true 0 0)) as [o' r] eqn:ER. cbn [snd] in E. subst r.
    destruct (C02_run_arrays 1 _ o' _ _ y e w oc1_reachable Hrows HL ER) as (_ & _ & HK).
    destruct (HK k) as (_ & Hy & He); [rewrite repeat_length; exact Hk|].
    specialize (Hy (or_intror eq_refl)). change (@n0 R (RNum solve)) with 0 in *.
    rewrite He. rewrite nth_repeat. change (@nsub R (RNum solve)) with Rminus.
    rewrite (nth_indep _ [] [c]) in Hy by (rewrite repeat_length; exact Hk). rewrite nth_repeat in Hy.
    unfold state_after in Hy. rewrite !firstn_repeat_min in Hy by lia.
    destruct k as [|k].
    - cbn [repeat adapt_all ret fst] in Hy.
      rewrite (predict_OCNLMS 1 _ [c] 1 2 true [[0]; [0]] [0; 0] 0 (oc1_wf true 0 0) eq_refl eq_refl) in Hy.
      injection Hy as <-. cbn. ring.
    - cbn [repeat adapt_all] in Hy. unfold bind in Hy. rewrite oc1_first, oc1_steps in Hy.
      rewrite (predict_OCNLMS 1 _ [c] 1 2 false [[0]; [c]] [0; _] 0 (oc1_wf false c _) eq_refl eq_refl) in Hy.
      injection Hy as <-. rewrite Nat.even_succ. unfold Nat.odd. rewrite flip_even. unfold oc_y, oc_read, mean0, mean, nofnat.
      cbn. destruct (Nat.even k); cbn; field.
  Qed.
End Props.

(** ** The stored targets are not the targets the user gave *)
Open Scope Q_scope.
Theorem C26_targets_stored_refuted : exists (o : obj Q) d x eps mem em mx md idx, reachable 1 o /\ length x = 1%nat /\
  o_ext (fst (adapt d x o)) = XOCNLMS eps mem em mx md idx /\ ~ In d md.
Proof.
  exists (get_ok obj0 (mk KOCNLMS (1 # 2) [1] (Some 2%nat) None)), 5, [1]. do 6 eexists. split.
  - apply (mk_reachable KOCNLMS (1 # 2) [1] (Some 2%nat) None); try discriminate.
    + intros m [= <-]; lia.
    + vm_compute; reflexivity.
  - split; [reflexivity|]. split; [vm_compute; reflexivity|]. vm_compute. intros [H|[H|[]]]; discriminate.
Qed.

(** the hypotheses of the C26 theorems can be met: an even and an odd memory after 3 samples with input [2; 3] *)
Definition oc_kw (mem : nat) : kwargs R :=
  mkKw (Some 2%Z) (Some (1 / 2)%R) (Some (WVec [1; 1]%R)) (Some 1%R) None None None None None None (Some mem) false.
Definition oc_ops : list (op (T := R)) := [OpAdapt 1%R [2; 3]%R; OpRun [4; 5]%R [[2; 3]; [2; 3]]%R].
Example C26_hypotheses : forall solve, let N := RNum solve in forall mem, mem = 2%nat \/ mem = 3%nat ->
  exists o : obj R, rng_ok rngR /\ sane_kw (oc_kw mem) /\ new_filter rngR KOCNLMS (oc_kw mem) = Ok o /\
    Forall (op_shape 2) oc_ops /\ constant_input [2; 3]%R (events_all oc_ops o) /\
    length (events_all oc_ops o) = 3%nat.
Proof.
  intros solve N mem Hmem. eexists. split; [exact rngR_ok|]. split; [destruct Hmem; subst mem; (split; [intros m [= <-]; lia|discriminate])|].
  split; [reflexivity|]. split; [repeat constructor|].
  assert (H : events_all oc_ops (mkObj [1; 1]%R 2 (1 / 2)%R None (XOCNLMS 1%R mem true (zeros2 mem 2) (zeros mem) 0)) =
    [Learned 1%R [2; 3]%R; Learned 4%R [2; 3]%R; Learned 5%R [2; 3]%R]).
  { destruct Hmem; subst mem; reflexivity. }
  split; [|change (length (events_all oc_ops (mkObj [1; 1]%R 2 (1 / 2)%R None (XOCNLMS 1%R mem true (zeros2 mem 2) (zeros mem) 0))) = 3%nat); rewrite H; reflexivity].
  change (constant_input [2; 3]%R (events_all oc_ops (mkObj [1; 1]%R 2 (1 / 2)%R None (XOCNLMS 1%R mem true (zeros2 mem 2) (zeros mem) 0)))).
  rewrite H. repeat constructor.
Qed.
