(** Property C21: RLS solves the exponentially weighted, regularised least-squares problem; exact real arithmetic. *)
From Coq Require Import Reals Lra Psatz.
From Verif Require Import Py Num Numpy Filters Registry Spec StructProofs RunProofs Reach RVec RFilter Steps RMat
  PropsStability PropsAlgebra.
Open Scope R_scope.

(** ** Specification *)
(** the cost after k samples: forgetting factor mu, regularisation eps towards the initial weights w0 *)
Definition ls_cost (mu eps : R) (w0 d : rvec) (x : list rvec) (k : nat) (v : rvec) : R :=
  sumn k (fun i => mu ^ (k - 1 - i) * (nth i d 0 - Rdot v (nth i x [])) ^ 2) + mu ^ k * eps * distsq v w0.
(** the matrix mu^k eps I + sum_i mu^(k-1-i) x_i x_i^T *)
Definition ls_gram (mu eps : R) (x : list rvec) (k i j : nat) : R :=
  sumn k (fun t => mu ^ (k - 1 - t) * (nth i (nth t x []) 0 * nth j (nth t x []) 0)) +
  (if Nat.eqb i j then mu ^ k * eps else 0).
Definition delta (i j : nat) : R := if Nat.eqb i j then 1 else 0.

(** ** The operator A_k *)
Fixpoint Aop (mu eps : R) (x : list rvec) (k : nat) (v : rvec) : rvec :=
  match k with
  | O => vsc eps v
  | S k' => vadd (vsc mu (Aop mu eps x k' v)) (vsc (Rdot (nth k' x []) v) (nth k' x []))
  end.

Section RLS.
  Variable solve : list rvec -> list rvec -> option (list rvec).
  #[local] Hint Extern 0 (Num R) => exact (RNum solve) : typeclass_instances.
  Notation obj := (obj R).

  Section Op.
    Variables (mu eps : R) (x : list rvec) (n : nat).
    Hypothesis Hx : forall i, (i < length x)%nat -> length (nth i x []) = n.
    Notation A := (Aop mu eps x).

    Lemma A_len k v : (k <= length x)%nat -> length v = n -> length (A k v) = n.
    Proof.
      intros Hk Hv; induction k as [|k IH]; simpl; [rewrite vsc_length; auto|].
      apply vadd_length; rewrite vsc_length; [apply IH; lia|apply Hx; lia].
    Qed.
    Lemma A_vsc k c v : (k <= length x)%nat -> length v = n -> A k (vsc c v) = vsc c (A k v).
    Proof.
      intros Hk Hv; induction k as [|k IH]; simpl.
      - unfold vsc; rewrite !map_map; apply map_ext; intros; ring.
      - rewrite IH by lia. pose proof (A_len k v ltac:(lia) Hv). pose proof (Hx k ltac:(lia)).
        apply nth_ext0; rewrite ?vsc_length.
        + rewrite !(vadd_length _ _ n); rewrite ?vsc_length; auto.
        + intros i _. rewrite !nth_vsc, !nth_vadd, !nth_vsc by (rewrite !vsc_length; congruence). rewrite Rdot_vsc_r. ring.
    Qed.
    Lemma A_vsub k u v : (k <= length x)%nat -> length u = n -> length v = n -> A k (vsub u v) = vsub (A k u) (A k v).
    Proof.
      intros Hk Hu Hv; induction k as [|k IH]; simpl.
      - apply nth_ext0; [rewrite vsc_length, !(vsub_length _ _ n); rewrite ?vsc_length; auto|].
        intros i _. rewrite nth_vsc, !nth_vsub, !nth_vsc by (rewrite ?vsc_length; congruence). ring.
      - rewrite IH by lia. pose proof (A_len k u ltac:(lia) Hu). pose proof (A_len k v ltac:(lia) Hv). pose proof (Hx k ltac:(lia)).
        rewrite Rdot_vsub_r by congruence.
        assert (L1 : length (vsub (A k u) (A k v)) = n) by (apply vsub_length; auto).
        assert (Lu : length (vadd (vsc mu (A k u)) (vsc (Rdot (nth k x []) u) (nth k x []))) = n) by (apply vadd_length; rewrite vsc_length; auto).
        assert (Lv : length (vadd (vsc mu (A k v)) (vsc (Rdot (nth k x []) v) (nth k x []))) = n) by (apply vadd_length; rewrite vsc_length; auto).
        apply nth_ext0; [rewrite (vadd_length _ _ n), (vsub_length _ _ n); rewrite ?vsc_length; auto|].
        intros i _. rewrite nth_vsub by congruence. rewrite !nth_vadd by (rewrite !vsc_length; congruence).
        rewrite !nth_vsc, nth_vsub by congruence. ring.
    Qed.
    Lemma A_sym k u v : (k <= length x)%nat -> length u = n -> length v = n -> Rdot u (A k v) = Rdot (A k u) v.
    Proof.
      intros Hk Hu Hv; induction k as [|k IH]; simpl.
      - rewrite Rdot_vsc_r, Rdot_vsc_l; ring.
      - pose proof (A_len k u ltac:(lia) Hu). pose proof (A_len k v ltac:(lia) Hv). pose proof (Hx k ltac:(lia)).
        rewrite Rdot_vadd_r, Rdot_vadd_l by (rewrite ?vsc_length; congruence).
        rewrite !Rdot_vsc_r, !Rdot_vsc_l, IH by lia. rewrite (Rdot_comm u (nth k x [])). ring.
    Qed.
    Lemma A_pos k v : 0 < mu -> (k <= length x)%nat -> length v = n -> mu ^ k * eps * normsq v <= Rdot v (A k v).
    Proof.
      intros Hmu Hk Hv; induction k as [|k IH]; cbn [Aop pow].
      - rewrite Rdot_vsc_r. unfold normsq. lra.
      - pose proof (A_len k v ltac:(lia) Hv). pose proof (Hx k ltac:(lia)).
        rewrite Rdot_vadd_r by (rewrite ?vsc_length; congruence). rewrite !Rdot_vsc_r, (Rdot_comm v (nth k x [])).
        pose proof (Rle_0_sqr (Rdot (nth k x []) v)) as Hs. unfold Rsqr in Hs.
        specialize (IH ltac:(lia)). apply (Rmult_le_compat_l mu) in IH; [|lra]. lra.
    Qed.
    Lemma A_ent k v i : (k <= length x)%nat -> length v = n -> (i < n)%nat ->
      nth i (A k v) 0 = sumn n (fun j => ls_gram mu eps x k i j * nth j v 0).
    Proof.
      intros Hk Hv Hi; induction k as [|k IH]; cbn [Aop].
      - rewrite nth_vsc. rewrite (sumn_ext n _ (fun j => (if Nat.eqb i j then 1 else 0) * (eps * nth j v 0))).
        + rewrite sumn_delta by auto. reflexivity.
        + intros j _. unfold ls_gram. cbn [sumn pow]. destruct (Nat.eqb i j); ring.
      - pose proof (A_len k v ltac:(lia) Hv). pose proof (Hx k ltac:(lia)) as Hxk.
        rewrite nth_vadd, !nth_vsc by (rewrite !vsc_length; congruence). rewrite IH by lia.
        rewrite (Rdot_sumn n) by auto. rewrite <- sumn_scal, <- sumn_scal_r, <- sumn_plus. apply sumn_ext. intros j Hj.
        unfold ls_gram. cbn [sumn]. replace (S k - 1 - k)%nat with 0%nat by lia.
        rewrite (sumn_ext k (fun t => mu ^ (S k - 1 - t) * (nth i (nth t x []) 0 * nth j (nth t x []) 0))
          (fun t => mu * (mu ^ (k - 1 - t) * (nth i (nth t x []) 0 * nth j (nth t x []) 0)))).
        + rewrite sumn_scal. destruct (Nat.eqb i j); cbn [pow]; ring.
        + intros t Ht. replace (S k - 1 - t)%nat with (S (k - 1 - t)) by lia. cbn [pow]. ring.
    Qed.
  End Op.

  Lemma cost_S mu eps w0 d x k v :
    ls_cost mu eps w0 d x (S k) v = mu * ls_cost mu eps w0 d x k v + (nth k d 0 - Rdot v (nth k x [])) ^ 2.
  Proof.
    unfold ls_cost. cbn [sumn]. replace (S k - 1 - k)%nat with 0%nat by lia.
    rewrite (sumn_ext k (fun i => mu ^ (S k - 1 - i) * (nth i d 0 - Rdot v (nth i x [])) ^ 2)
      (fun i => mu * (mu ^ (k - 1 - i) * (nth i d 0 - Rdot v (nth i x [])) ^ 2))).
    - rewrite sumn_scal. cbn [pow]. ring.
    - intros t Ht. replace (S k - 1 - t)%nat with (S (k - 1 - t)) by lia. cbn [pow]. ring.
  Qed.

  (** ** The update of R, applied to a vector *)
  Definition rls_den (mu : R) (R0 : rmat) (x : rvec) : R := mu + Rdot x (mv R0 x).
  Lemma rls_shape mu n R0 x : shape n n R0 -> length x = n -> shape n n (rls_R mu R0 x).
  Proof. intros (H1 & H2) H3. exact (rls_R_shape mu n R0 x H1 H2 H3). Qed.
  Lemma rls_mv mu n R0 x v : shape n n R0 -> length x = n -> length v = n ->
    mv (rls_R mu R0 x) v = vsc (1 / mu) (vsub (mv R0 v) (vsc (Rdot x (mv R0 v) / rls_den mu R0 x) (mv R0 x))).
  Proof.
    intros HR Hx Hv. unfold rls_R. cbv zeta. rewrite Hx. pose proof HR as (HRl & _).
    assert (HO : shape n n (outer x x)) by (pose proof (outer_shape solve x x) as H; rewrite Hx in H; exact H).
    set (R1 := mm n (mm n R0 (outer x x)) R0).
    assert (HR1 : shape n n R1) by (apply mm_shape; apply mm_shape; auto).
    set (R2 := nadd mu _). assert (E2 : R2 = rls_den mu R0 x).
    { unfold R2, rls_den. change (@nadd R (RNum solve)) with Rplus. f_equal.
      change (@ndot R (RNum solve)) with Rdot.
      assert (E : map (fun c => Rdot x c) (transpose n R0) = mv (transpose n R0) x).
      { unfold mv. apply map_ext; intros c. apply Rdot_comm. }
      rewrite E. symmetry. apply (mv_adjoint solve n n); auto. }
    rewrite (mv_mscale solve). change (ndiv n1 mu) with (1 / mu). f_equal.
    assert (HM : shape n n (map2 (map2 (fun r r1 => nsub r (ndiv r1 R2))) R0 R1)) by (apply map2m_shape; auto).
    assert (E1 : mv R1 v = vsc (Rdot x (mv R0 v)) (mv R0 x)).
    { unfold R1. rewrite (mv_mm solve n n n) by (auto; apply mm_shape; auto).
      rewrite (mv_mm solve n n n) by (auto; rewrite (mv_len solve); auto).
      rewrite (mv_outer solve), (mv_vsc solve). reflexivity. }
    apply nth_ext0.
    - rewrite (mv_len solve), (vsub_length _ _ n); [apply HM|rewrite (mv_len solve); auto|rewrite vsc_length, (mv_len solve); auto].
    - intros i Hi. rewrite (mv_len solve) in Hi. assert (Hi' : (i < n)%nat) by (destruct HM; lia).
      rewrite nth_vsub by (rewrite vsc_length, !(mv_len solve); auto).
      rewrite (mv_ent solve n n) by auto.
      rewrite (sumn_ext n _ (fun j => ent R0 i j * nth j v 0 - / R2 * (ent R1 i j * nth j v 0))).
      + rewrite sumn_minus, sumn_scal, <- (mv_ent solve n n R0 v i), <- (mv_ent solve n n R1 v i) by auto.
        rewrite E1, !nth_vsc, E2. unfold Rdiv. ring.
      + intros j Hj. rewrite (map2m_ent n n) by auto. change (@nsub R (RNum solve)) with Rminus. change (@ndiv R (RNum solve)) with Rdiv.
        unfold Rdiv; ring.
  Qed.

  (** ** The invariant *)
  Section Step.
    Variables (mu eps : R) (x : list rvec) (n : nat).
    Hypothesis Hmu : 0 < mu.
    Hypothesis Heps : 0 < eps.
    Hypothesis Hx : forall i, (i < length x)%nat -> length (nth i x []) = n.
    Notation A := (Aop mu eps x).
    Definition inverse_of (k : nat) (R0 : rmat) : Prop :=
      shape n n R0 /\
      (forall u v, length u = n -> length v = n -> Rdot u (mv R0 v) = Rdot (mv R0 u) v) /\
      (forall v, length v = n -> A k (mv R0 v) = v) /\ (forall v, length v = n -> mv R0 (A k v) = v).

    Lemma inverse_0 : inverse_of 0 (mscale (1 / eps) (identity n)).
    Proof.
      assert (E : forall v, length v = n -> mv (mscale (1 / eps) (identity n)) v = vsc (1 / eps) v).
      { intros v Hv. rewrite (mv_mscale solve), (mv_identity solve) by auto. reflexivity. }
      assert (Ev : forall a b (v : rvec), a * b = 1 -> vsc a (vsc b v) = v).
      { intros a b v H. unfold vsc. rewrite map_map. rewrite <- map_id. apply map_ext. intros; rewrite <- Rmult_assoc, H; ring. }
      split; [apply mscale_shape, identity_shape|]. split; [|split].
      - intros u v Hu Hv. rewrite !E by auto. rewrite Rdot_vsc_r, Rdot_vsc_l. reflexivity.
      - intros v Hv. rewrite E by auto. cbn [Aop]. apply Ev. field; lra.
      - intros v Hv. cbn [Aop]. rewrite E by (rewrite vsc_length; auto). apply Ev. field; lra.
    Qed.

    Lemma inverse_den k R0 z : (k <= length x)%nat -> inverse_of k R0 -> length z = n -> 0 < rls_den mu R0 z.
    Proof.
      intros Hk (HR & Hs & H1 & H2) Hz. unfold rls_den.
      assert (Hl : length (mv R0 z) = n) by (rewrite (mv_len solve); apply HR).
      pose proof (A_pos mu eps x n Hx k (mv R0 z) Hmu Hk Hl) as HP. rewrite H1 in HP by auto.
      pose proof (normsq_nonneg (mv R0 z)). pose proof (pow_lt mu k Hmu).
      assert (0 <= mu ^ k * eps * normsq (mv R0 z)) by (apply Rmult_le_pos; [apply Rmult_le_pos; lra|auto]).
      rewrite Rdot_comm in HP. lra.
    Qed.

    Lemma inverse_S k R0 : (k < length x)%nat -> inverse_of k R0 -> inverse_of (S k) (rls_R mu R0 (nth k x [])).
    Proof.
      intros Hk HI. pose proof (Hx k Hk) as Hz. set (z := nth k x []) in *.
      pose proof (inverse_den k R0 z ltac:(lia) HI Hz) as HD. destruct HI as (HR & Hs & H1 & H2).
      pose proof (fun v Hv => rls_mv mu n R0 z v HR Hz Hv) as E.
      assert (LR : forall v, length (mv R0 v) = n) by (intros; rewrite (mv_len solve); apply HR).
      assert (Lz : length (mv R0 z) = n) by auto.
      set (D := rls_den mu R0 z) in *.
      assert (LU : forall v, length (vsub (mv R0 v) (vsc (Rdot z (mv R0 v) / D) (mv R0 z))) = n)
        by (intros; apply vsub_length; rewrite ?vsc_length; auto).
      assert (Hdot : forall a v, length a = n -> Rdot a (vsc (1 / mu) (vsub (mv R0 v) (vsc (Rdot z (mv R0 v) / D) (mv R0 z)))) =
                (Rdot a (mv R0 v) - Rdot z (mv R0 v) / D * Rdot a (mv R0 z)) / mu).
      { intros a v Ha. rewrite Rdot_vsc_r, Rdot_vsub_r by (rewrite ?vsc_length; congruence). rewrite Rdot_vsc_r. field. split; lra. }
      split; [apply rls_shape; auto|]. split; [|split].
      - intros u v Hu Hv. rewrite !E by auto. rewrite Hdot by auto. rewrite (Rdot_comm _ v), Hdot by auto.
        rewrite (Hs u v), (Rdot_comm v (mv R0 u)) by auto.
        rewrite (Rdot_comm u (mv R0 z)), <- (Hs z u) by auto. rewrite (Rdot_comm v (mv R0 z)), <- (Hs z v) by auto. field. split; lra.
      - intros v Hv. rewrite E by auto. cbn [Aop]. fold z.
        rewrite (A_vsc mu eps x n Hx) by (auto; lia). rewrite (A_vsub mu eps x n Hx) by (rewrite ?vsc_length; auto; lia).
        rewrite (A_vsc mu eps x n Hx) by (auto; lia). rewrite !H1 by auto. rewrite Hdot by auto.
        assert (L1 : length (vsub v (vsc (Rdot z (mv R0 v) / D) z)) = n) by (apply vsub_length; rewrite ?vsc_length; auto).
        apply nth_ext0; [rewrite (vadd_length _ _ n); rewrite ?vsc_length; auto|].
        intros i _. rewrite nth_vadd, !nth_vsc, nth_vsub, nth_vsc by (rewrite ?vsc_length; congruence).
        unfold D, rls_den in *. set (q := Rdot z (mv R0 z)) in *. set (a := Rdot z (mv R0 v)). field. split; lra.
      - intros v Hv. cbn [Aop]. fold z. pose proof (A_len mu eps x n Hx k v ltac:(lia) Hv) as LA.
        assert (L1 : length (vadd (vsc mu (A k v)) (vsc (Rdot z v) z)) = n) by (apply vadd_length; rewrite vsc_length; auto).
        rewrite E by auto. rewrite (mv_vadd solve n n) by (auto; rewrite vsc_length; auto).
        rewrite !(mv_vsc solve), H2 by auto.
        assert (L2 : length (vadd (vsc mu v) (vsc (Rdot z v) (mv R0 z))) = n) by (apply vadd_length; rewrite vsc_length; auto).
        rewrite Rdot_vadd_r by (rewrite ?vsc_length; congruence). rewrite !Rdot_vsc_r.
        apply nth_ext0; [rewrite vsc_length, (vsub_length _ _ n); rewrite ?vsc_length; auto|].
        intros i _. rewrite nth_vsc, nth_vsub by (rewrite ?vsc_length; congruence).
        rewrite nth_vadd, !nth_vsc by (rewrite ?vsc_length; congruence).
        unfold D, rls_den in *. set (q := Rdot z (mv R0 z)) in *. set (a := Rdot z v). field. split; lra.
    Qed.

    Definition best (w0 d : rvec) (k : nat) (w : rvec) : Prop :=
      length w = n /\ exists c, forall v, length v = n ->
        ls_cost mu eps w0 d x k v = c + Rdot (vsub v w) (A k (vsub v w)).

    Lemma best_0 w0 d : length w0 = n -> best w0 d 0 w0.
    Proof.
      intros Hw; split; auto. exists 0. intros v Hv. unfold ls_cost, distsq. cbn [sumn pow Aop].
      rewrite Rdot_vsc_r. unfold normsq. ring.
    Qed.
    Lemma best_S w0 d k R0 w : (k < length x)%nat -> inverse_of k R0 -> best w0 d k w ->
      let z := nth k x [] in let e := nth k d 0 - Rdot w z in
      best w0 d (S k) (vadd w (vsc e (mv (rls_R mu R0 z) z))).
    Proof.
      intros Hk HI (Hw & c & Hc) z e. pose proof (Hx k Hk) as Hz. fold z in Hz.
      pose proof (inverse_S k R0 Hk HI) as (HR' & _ & H1' & _). fold z in HR', H1'.
      set (u := vsc e (mv (rls_R mu R0 z) z)).
      assert (Hu : length u = n) by (unfold u; rewrite vsc_length, (mv_len solve); apply HR').
      assert (HAu : A (S k) u = vsc e z).
      { unfold u. rewrite (A_vsc mu eps x n Hx) by (auto; rewrite ?(mv_len solve); try apply HR'; lia). rewrite H1' by auto. reflexivity. }
      split; [apply vadd_length; auto|].
      exists (mu * c + e ^ 2 - Rdot u (A (S k) u)). intros v Hv. rewrite cost_S, Hc by auto. fold z.
      set (q := vsub v w). assert (Hq : length q = n) by (apply vsub_length; auto).
      assert (Eq : vsub v (vadd w u) = vsub q u).
      { apply nth_ext0; [rewrite !(vsub_length _ _ n); auto using vadd_length|].
        intros i _. assert (length (vadd w u) = n) by (apply vadd_length; auto). rewrite !nth_vsub, nth_vadd by congruence. unfold q.
        rewrite nth_vsub by congruence. ring. }
      rewrite Eq. rewrite (A_vsub mu eps x n Hx) by (auto; lia).
      pose proof (A_len mu eps x n Hx (S k) q ltac:(lia) Hq) as L1. pose proof (A_len mu eps x n Hx (S k) u ltac:(lia) Hu) as L2.
      rewrite Rdot_vsub_l, !Rdot_vsub_r by (rewrite ?(vsub_length _ _ n); auto; congruence).
      rewrite (A_sym mu eps x n Hx (S k) u q) by (auto; lia). rewrite HAu.
      assert (Ed : Rdot v z = Rdot w z + Rdot q z) by (unfold q; rewrite Rdot_vsub_l by congruence; ring).
      rewrite Ed. cbn [Aop]. fold z. pose proof (A_len mu eps x n Hx k q ltac:(lia) Hq) as L3.
      rewrite Rdot_vadd_r by (rewrite ?vsc_length; congruence). rewrite !Rdot_vsc_r, !Rdot_vsc_l.
      rewrite (Rdot_comm q z). unfold e. ring.
    Qed.
  End Step.

  (** ** The filter *)
  Lemma new_RLS rng (kw : kwargs R) n o : new_filter rng KRLS kw = Ok o -> kw_n kw = Some (Z.of_nat n) ->
    exists eps, o_ext o = XRLS eps (mscale (1 / eps) (identity n)).
  Proof.
    unfold new_filter. destruct (kw_other kw); [discriminate|]. destruct (existsb _ _); [discriminate|].
    intros H Hn. rewrite Hn in H. revert H.
    match goal with |- match ?m with _ => _ end = _ -> _ => destruct m as [mu|]; [|discriminate] end.
    destruct (init_base _ _ _ _ _) as [ob|]; [|discriminate]. cbn [rbind]. rewrite Nat2Z.id. cbn [init_ext]. cbv zeta.
    match goal with |- context [if ?b then _ else _] => destruct b end; [discriminate|].
    cbn [rmap]. intros [= <-]. eexists. reflexivity.
  Qed.

  Lemma rls_states n (o : obj) d x eps : wf n o -> rowsl n x -> length d = length x ->
    o_ext o = XRLS eps (mscale (1 / eps) (identity n)) -> 0 < o_mu o -> 0 < eps ->
    forall k, (k <= length x)%nat ->
    wf n (state_after k d x o) /\ o_mu (state_after k d x o) = o_mu o /\
    exists R0, o_ext (state_after k d x o) = XRLS eps R0 /\ inverse_of (o_mu o) eps x n k R0 /\
      best (o_mu o) eps x n (o_w o) d k (o_w (state_after k d x o)).
  Proof.
    intros Hwf Hx Hl E Hmu Heps.
    assert (Hxl : forall i, (i < length x)%nat -> length (nth i x []) = n) by (intros; apply nth_rows; auto).
    assert (HO : snd (adapt_all d x o) = Ok tt).
    { destruct (adapt_all_ok n d x o Hwf Hx) as (o' & r & -> & _ & _ & _ & [-> | (ex & _ & He)]); auto.
      exfalso. unfold soft_exn in He; rewrite E in He. destruct He as (_ & He).
      change (Reqb (o_mu o) 0 = true) in He. unfold Reqb in He. destruct (Req_EM_T (o_mu o) 0); [lra|discriminate]. }
    induction k as [|k IH]; intros Hk.
    - unfold state_after; cbn [firstn adapt_all fst ret]. split; auto. split; auto.
      exists (mscale (1 / eps) (identity n)). split; auto. split; [apply inverse_0; auto|apply best_0; apply Hwf].
    - destruct IH as (Hs & Hm & R0 & Es & HI & HB); [lia|].
      pose proof (adapt_all_Ok_split solve d x o k Hl ltac:(lia) HO) as Ha.
      assert (Hnz : neqb (o_mu (state_after k d x o)) n0 = false).
      { rewrite Hm. change (Reqb (o_mu o) 0 = false). unfold Reqb. destruct (Req_EM_T (o_mu o) 0); [lra|reflexivity]. }
      rewrite (adapt_RLS n _ _ _ eps R0 Hs (Hxl k ltac:(lia)) Es Hnz) in Ha.
      pose proof (inverse_S (o_mu o) eps x n Hmu Heps Hxl k R0 ltac:(lia) HI) as HI'.
      pose proof (best_S (o_mu o) eps x n Hmu Heps Hxl (o_w o) d k R0 _ ltac:(lia) HI HB) as HB'. cbv zeta in HB'.
      injection Ha as Ha. rewrite <- Ha. cbn [set_w set_ext o_w o_mu o_ext o_n]. rewrite Hm in *.
      set (ws := o_w (state_after k d x o)) in *. set (z := nth k x []) in *.
      assert (Ew : map2 Rplus ws (map (fun a => a * (nth k d 0 - Rdot ws z)) (mv (rls_R (o_mu o) R0 z) z)) =
        vadd ws (vsc (nth k d 0 - Rdot ws z) (mv (rls_R (o_mu o) R0 z) z))).
      { unfold vadd, vsc. f_equal. apply map_ext; intros a. apply Rmult_comm. }
      split; [|split; auto].
      + split; [|split; [apply Hs|]]; cbn [o_w o_n o_ext wf_ext].
        * exact (eq_ind_r (fun W => length W = n) (proj1 HB') Ew).
        * apply HI'.
      + exists (rls_R (o_mu o) R0 z). split; [reflexivity|]. split; [exact HI'|].
        exact (eq_ind_r (fun W => best (o_mu o) eps x n (o_w o) d (S k) W) HB' Ew).
  Qed.

  Lemma best_min mu eps x n w0 d k w : 0 < mu -> 0 < eps ->
    (forall i, (i < length x)%nat -> length (nth i x []) = n) -> (k <= length x)%nat -> best mu eps x n w0 d k w ->
    forall v, length v = n -> v <> w -> ls_cost mu eps w0 d x k w < ls_cost mu eps w0 d x k v.
  Proof.
    intros Hmu Heps Hx Hk (Hw & c & Hc) v Hv Hne. rewrite !Hc by auto.
    assert (Lq : length (vsub v w) = n) by (apply vsub_length; auto).
    pose proof (A_pos mu eps x n Hx k (vsub v w) Hmu Hk Lq) as HP.
    assert (Hz : Rdot (vsub w w) (Aop mu eps x k (vsub w w)) = 0).
    { assert (vsub w w = repeat 0 n) as ->; [|apply Rdot_zero_l].
      apply nth_ext0; [rewrite (vsub_length _ _ n), repeat_length; auto|]. intros i _. rewrite nth_vsub, nth_repeat by auto. ring. }
    rewrite Hz. assert (Hp : 0 < normsq (vsub v w)).
    { destruct (Rle_lt_or_eq_dec 0 (normsq (vsub v w)) (normsq_nonneg _)) as [|Hc0]; auto.
      exfalso. apply Hne. apply distsq_zero; [congruence|]. symmetry; exact Hc0. }
    pose proof (pow_lt mu k Hmu). assert (0 < mu ^ k * eps * normsq (vsub v w)) by (repeat apply Rmult_lt_0_compat; auto). lra.
  Qed.

  (** after every number k of samples the weights are the unique minimiser of the cost *)
  Theorem C21_least_squares : forall rng (kw : kwargs R) n (o o' : obj) eps R0 d x y e w,
    rng_ok rng -> sane_kw kw -> kw_n kw = Some (Z.of_nat n) -> new_filter rng KRLS kw = Ok o ->
    o_ext o = XRLS eps R0 -> 0 < eps -> 0 < o_mu o ->
    rows_of n x -> run d x o = (o', Ok (y, e, w)) ->
    forall k, (k <= length x)%nat ->
      length (wrow w (o_w o') k) = n /\
      forall v, length v = n -> v <> wrow w (o_w o') k ->
        ls_cost (o_mu o) eps (o_w o) d x k (wrow w (o_w o') k) < ls_cost (o_mu o) eps (o_w o) d x k v.
  Proof.
    intros rng kw n o o' eps R0 d x y e w Hrng Hkw Hn H E Heps Hmu Hx Hrun k Hk.
    destruct (new_RLS rng kw n o H Hn) as (eps' & E'). rewrite E' in E. injection E as <- _.
    pose proof (new_filter_wf rng KRLS kw n o Hrng Hkw Hn H) as Hwf.
    destruct (run_lengths solve n o o' d x y e w Hwf Hx Hrun) as (Hl & Hne & Hly & Hle & Hlw & Hy & He & Hw & HO & Hw').
    destruct (rls_states n o d x eps' Hwf Hx Hl E' Hmu Heps k Hk) as (_ & _ & R1 & _ & _ & HB).
    assert (Ew : wrow w (o_w o') k = o_w (state_after k d x o)).
    { unfold wrow. destruct (Nat.eq_dec k (length x)) as [->|Hne'].
      - rewrite app_nth2 by lia. rewrite Hlw, Nat.sub_diag. cbn [nth]. rewrite Hw'. unfold state_after. rewrite !firstn_all2 by lia. reflexivity.
      - rewrite app_nth1 by lia. rewrite Hw. rewrite wtrace_nth by (auto; lia). reflexivity. }
    rewrite Ew. split; [apply HB|]. apply (best_min _ _ _ n); auto. intros; apply nth_rows; auto.
  Qed.

  (** the stored matrix is the inverse of the weighted, regularised correlation matrix *)
  Theorem C21_inverse_correlation : forall rng (kw : kwargs R) n (o : obj) eps R0 d x,
    rng_ok rng -> sane_kw kw -> kw_n kw = Some (Z.of_nat n) -> new_filter rng KRLS kw = Ok o ->
    o_ext o = XRLS eps R0 -> 0 < eps -> 0 < o_mu o ->
    rows_of n x -> length d = length x ->
    forall k, (k <= length x)%nat ->
      exists Rk, o_ext (state_after k d x o) = XRLS eps Rk /\ shape n n Rk /\
        forall i j, (i < n)%nat -> (j < n)%nat ->
          sumn n (fun l => ent Rk i l * ls_gram (o_mu o) eps x k l j) = delta i j /\
          sumn n (fun l => ls_gram (o_mu o) eps x k i l * ent Rk l j) = delta i j.
  Proof.
    intros rng kw n o eps R0 d x Hrng Hkw Hn H E Heps Hmu Hx Hl k Hk.
    destruct (new_RLS rng kw n o H Hn) as (eps' & E'). rewrite E' in E. injection E as <- _.
    pose proof (new_filter_wf rng KRLS kw n o Hrng Hkw Hn H) as Hwf.
    destruct (rls_states n o d x eps' Hwf Hx Hl E' Hmu Heps k Hk) as (_ & _ & Rk & Ek & (HR & Hsy & H1 & H2) & _).
    exists Rk. split; auto. split; auto. intros i j Hi Hj.
    assert (Hxl : forall i, (i < length x)%nat -> length (nth i x []) = n) by (intros; apply nth_rows; auto).
    set (ej := map (delta j) (seq 0 n)).
    assert (Le : length ej = n) by (unfold ej; rewrite map_length, seq_length; auto).
    assert (Ee : forall l, (l < n)%nat -> nth l ej 0 = delta j l).
    { intros l Hlt. unfold ej. rewrite (map_nth_lt _ _ _ 0%nat) by (rewrite seq_length; auto). rewrite seq_nth by auto. reflexivity. }
    assert (Hd : delta i j = nth i ej 0) by (rewrite Ee by auto; unfold delta; rewrite Nat.eqb_sym; reflexivity).
    rewrite Hd. split.
    - rewrite <- (H2 ej Le) at 1. rewrite (mv_ent solve n n) by (auto; apply (A_len _ _ _ n); auto).
      apply sumn_ext; intros l Hlt. f_equal. rewrite (A_ent _ _ _ n) by auto.
      rewrite <- (sumn_delta n j (fun m => ls_gram (o_mu o) eps' x k l m)) by auto. apply sumn_ext; intros m Hm.
      rewrite Ee by auto. unfold delta. ring.
    - rewrite <- (H1 ej Le) at 1. rewrite (A_ent _ _ _ n) by (auto; rewrite (mv_len solve); apply HR).
      apply sumn_ext; intros l Hlt. f_equal. rewrite (mv_ent solve n n) by auto.
      rewrite <- (sumn_delta n j (fun m => ent Rk l m)) by auto. apply sumn_ext; intros m Hm.
      rewrite Ee by auto. unfold delta. ring.
  Qed.

  (** consequence of optimality: the weighted squared fit is never worse than that of the initial weights *)
  Corollary C21_never_worse_than_start : forall rng (kw : kwargs R) n (o o' : obj) eps R0 d x y e w,
    rng_ok rng -> sane_kw kw -> kw_n kw = Some (Z.of_nat n) -> new_filter rng KRLS kw = Ok o ->
    o_ext o = XRLS eps R0 -> 0 < eps -> 0 < o_mu o ->
    rows_of n x -> run d x o = (o', Ok (y, e, w)) ->
    sumn (length x) (fun i => (o_mu o) ^ (length x - 1 - i) * (nth i d 0 - Rdot (o_w o') (nth i x [])) ^ 2) <=
    sumn (length x) (fun i => (o_mu o) ^ (length x - 1 - i) * (nth i d 0 - Rdot (o_w o) (nth i x [])) ^ 2).
  Proof.
    intros rng kw n o o' eps R0 d x y e w Hrng Hkw Hn H E Heps Hmu Hx Hrun.
    pose proof (new_filter_wf rng KRLS kw n o Hrng Hkw Hn H) as Hwf.
    destruct (run_lengths solve n o o' d x y e w Hwf Hx Hrun) as (_ & _ & _ & _ & Hlw & _).
    destruct (C21_least_squares rng kw n o o' eps R0 d x y e w Hrng Hkw Hn H E Heps Hmu Hx Hrun (length x) (le_n _)) as (HL & HM).
    assert (Ew : wrow w (o_w o') (length x) = o_w o') by (unfold wrow; rewrite app_nth2 by lia; rewrite Hlw, Nat.sub_diag; reflexivity).
    rewrite Ew in *. assert (Hw0 : length (o_w o) = n) by apply Hwf.
    pose proof (normsq_nonneg (vsub (o_w o') (o_w o))) as Hp. pose proof (pow_lt (o_mu o) (length x) Hmu) as Hq.
    assert (H0 : 0 <= o_mu o ^ length x * eps * distsq (o_w o') (o_w o)) by (unfold distsq; apply Rmult_le_pos; [apply Rmult_le_pos; lra|auto]).
    assert (Hz : distsq (o_w o) (o_w o) = 0).
    { unfold distsq. replace (vsub (o_w o) (o_w o)) with (repeat 0 n); [unfold normsq; apply Rdot_zero_l|].
      apply nth_ext0; [rewrite (vsub_length _ _ n), repeat_length; auto|]. intros i _. rewrite nth_vsub, nth_repeat by auto. ring. }
    destruct (list_eq_dec Req_EM_T (o_w o) (o_w o')) as [He|Hne]; [rewrite He; lra|].
    specialize (HM (o_w o) Hw0 Hne). unfold ls_cost in HM. rewrite Hz, Rmult_0_r in HM. lra.
  Qed.

  (** *** The hypotheses can be met: two samples, two weights *)
  Example C21_hypotheses : exists (kw : kwargs R) o R0 o' y e w,
    rng_ok rngR /\ sane_kw kw /\ kw_n kw = Some (Z.of_nat 2) /\ new_filter rngR KRLS kw = Ok o /\
    o_ext o = XRLS 1 R0 /\ 0 < 1 /\ 0 < o_mu o /\ rows_of 2 xs0 /\ run ds0 xs0 o = (o', Ok (y, e, w)) /\ length xs0 = 2%nat.
  Proof.
    pose proof (kwE_reachable solve KRLS 1 ws0 (Some 1) None None _ ltac:(discriminate) (rlsE_new solve)) as Hr.
    destruct (run_exists solve 2 (rlsE solve) ds0 xs0 Hr xs0_rows eq_refl) as (o' & y & e & w & E).
    - discriminate.
    - intros ex (_ & He). cbn in He. rewrite Reqb_1_0 in He. discriminate.
    - exists (kwE 1 ws0 (Some 1) None None), (rlsE solve). do 5 eexists.
      split; [apply rngR_ok|]. split; [split; intros ? Hs; discriminate Hs|]. split; [reflexivity|]. split; [apply rlsE_new|].
      split; [reflexivity|]. split; [lra|]. split; [cbn; lra|]. split; [apply xs0_rows|]. split; [exact E|reflexivity].
  Qed.
End RLS.
