(** C123: LMS and NLMS fed with a sine and a cosine are notch filters (exact real arithmetic). *)
From Coq Require Import Reals Lra Lia Psatz.
From Verif Require Import Py Num Numpy Filters Registry Spec StructProofs RunProofs Reach RVec RFilter PropsStability Steps PropsAlgebra PropsConverge.
Open Scope R_scope.

(** ** Specification *)
(** the reference: a cosine and a sine of amplitude C, om radians per sample *)
Definition reference (C om : R) (k : nat) : rvec := [C * cos (om * INR k); C * sin (om * INR k)].
(** a tone *)
Definition tone (A B om : R) (k : nat) : R := A * cos (om * INR k) + B * sin (om * INR k).
(** the step in units of the reference: LMS with mu C^2 = m, or NLMS with mu C^2 / (eps + C^2) = m *)
Definition step_is (o : obj R) (C m : R) : Prop :=
  (o_ext o = XLMS /\ m = o_mu o * C ^ 2) \/ exists eps, o_ext o = XNLMS eps /\ eps + C ^ 2 <> 0 /\ m = o_mu o * C ^ 2 / (eps + C ^ 2).
(** the squared gain of the notch at om for a tone at th *)
Definition notch_gain (m om th : R) : R := 4 * (cos th - cos om) ^ 2 / ((2 - m) ^ 2 * (cos th - cos om) ^ 2 + m ^ 2 * sin th ^ 2).
(** the factor by which transients decrease every two samples *)
Definition notch_rate (m om : R) : R := 1 - m * (2 - m) * sin om ^ 2 / 3.

(** ** Trigonometry *)
Lemma cos_S om k : cos (om * INR (S k)) = cos (om * INR k) * cos om - sin (om * INR k) * sin om.
Proof. rewrite S_INR, Rmult_plus_distr_l, Rmult_1_r. apply cos_plus. Qed.
Lemma sin_S om k : sin (om * INR (S k)) = sin (om * INR k) * cos om + cos (om * INR k) * sin om.
Proof. rewrite S_INR, Rmult_plus_distr_l, Rmult_1_r. apply sin_plus. Qed.
Lemma cs1 t : cos t ^ 2 = 1 - sin t ^ 2.
Proof. pose proof (sin2_cos2 t) as H. unfold Rsqr in H. lra. Qed.

(** ** The rotating error: two steps *)
Section Rotate.
  Variables (m c s : R) (P Q : nat -> R) (N : nat).
  Hypothesis Hcs : c ^ 2 = 1 - s ^ 2.
  Hypothesis Hm : 0 <= m <= 2.
  Hypothesis HP : forall k, (S k < N)%nat -> P (S k) = c * (1 - m) * P k + s * Q k /\ Q (S k) = c * Q k - s * (1 - m) * P k.
  Let rate := 1 - m * (2 - m) * s ^ 2 / 3.
  Lemma rate_range : 0 <= rate <= 1.
  Proof.
    unfold rate. pose proof (pow2_ge_0 c). pose proof (pow2_ge_0 s). pose proof (pow2_ge_0 (1 - m)). assert (0 <= m * (2 - m) <= 1) by (split; [apply Rmult_le_pos; lra|lra]). assert (0 <= s ^ 2 <= 1) by lra. assert (0 <= m * (2 - m) * s ^ 2 <= 1 * 1); [|lra].
    split; [apply Rmult_le_pos; lra|apply Rmult_le_compat; lra].
  Qed.
  Lemma rot_one k : (S k < N)%nat -> P (S k) ^ 2 + Q (S k) ^ 2 = P k ^ 2 + Q k ^ 2 - m * (2 - m) * P k ^ 2.
  Proof.
    intros Hk. destruct (HP k Hk) as (-> & ->).
    replace ((c * (1 - m) * P k + s * Q k) ^ 2 + (c * Q k - s * (1 - m) * P k) ^ 2) with ((c ^ 2 + s ^ 2) * ((1 - m) ^ 2 * P k ^ 2 + Q k ^ 2)) by ring.
    rewrite Hcs. ring.
  Qed.
  Lemma rot_two k : (S (S k) < N)%nat -> P (S (S k)) ^ 2 + Q (S (S k)) ^ 2 <= rate * (P k ^ 2 + Q k ^ 2).
  Proof.
    intros Hk. rewrite (rot_one (S k) Hk), (rot_one k) by lia. destruct (HP k ltac:(lia)) as (H1 & _).
    set (p := P k) in *. set (q := Q k) in *. set (p1 := P (S k)) in *.
    pose proof (pow2_ge_0 c). pose proof (pow2_ge_0 s). assert (G : 0 <= m * (2 - m)) by (apply Rmult_le_pos; lra).
    assert (Hs : 0 <= s ^ 2 <= 1) by lra. assert (Hc : c ^ 2 <= 1) by lra. assert (Hm1 : (1 - m) ^ 2 <= 1) by lra.
    assert (B : (c * (1 - m) * p) ^ 2 <= p ^ 2).
    { replace ((c * (1 - m) * p) ^ 2) with (c ^ 2 * (1 - m) ^ 2 * p ^ 2) by ring. rewrite <- (Rmult_1_l (p ^ 2)) at 2. apply Rmult_le_compat_r; [apply pow2_ge_0|].
      replace 1 with (1 * 1) by ring. apply Rmult_le_compat; try lra; apply pow2_ge_0. }
    assert (B1 : s ^ 2 * q ^ 2 <= 2 * p1 ^ 2 + 2 * p ^ 2).
    { assert (E : s * q = p1 - c * (1 - m) * p) by lra. replace (s ^ 2 * q ^ 2) with ((s * q) ^ 2) by ring. rewrite E. pose proof (pow2_ge_0 (p1 + c * (1 - m) * p)). lra. }
    assert (B2 : s ^ 2 * p ^ 2 <= p ^ 2) by (pose proof (pow2_ge_0 p); nra).
    assert (B3 : s ^ 2 * (p ^ 2 + q ^ 2) <= 3 * (p ^ 2 + p1 ^ 2)) by (pose proof (pow2_ge_0 p1); lra).
    unfold rate.
    assert (B4 : m * (2 - m) * (s ^ 2 * (p ^ 2 + q ^ 2)) <= m * (2 - m) * (3 * (p ^ 2 + p1 ^ 2))) by (apply Rmult_le_compat_l; assumption). lra.
  Qed.
  Lemma rot_all k : (k < N)%nat -> P k ^ 2 + Q k ^ 2 <= rate ^ (k / 2) * (P 0%nat ^ 2 + Q 0%nat ^ 2).
  Proof.
    pose proof rate_range as HR. induction k as [k IH] using (well_founded_induction lt_wf). intros Hk. destruct k as [|[|k]].
    - change (0 / 2)%nat with 0%nat. cbn [pow]. lra.
    - change (1 / 2)%nat with 0%nat. rewrite (rot_one 0) by exact Hk. assert (0 <= m * (2 - m) * P 0%nat ^ 2) by (apply Rmult_le_pos; [nra|apply pow2_ge_0]). cbn [pow] in *. lra.
    - eapply Rle_trans; [apply rot_two; exact Hk|]. specialize (IH k ltac:(lia) ltac:(lia)).
      replace (S (S k) / 2)%nat with (S (k / 2)) by (replace (S (S k)) with (k + 1 * 2)%nat by lia; rewrite Nat.div_add by lia; lia).
      cbn [pow]. rewrite Rmult_assoc. apply Rmult_le_compat_l; [apply HR|exact IH].
  Qed.
End Rotate.

Section S.
  Variable solve : list rvec -> list rvec -> option (list rvec).
  #[local] Hint Extern 0 (Num R) => exact (RNum solve) : typeclass_instances.
  Notation obj := (obj R).

  Lemma ref_rows C om N : rowsl 2 (first N (reference C om)).
  Proof. apply Forall_forall. intros v Hv. apply in_map_iff in Hv. destruct Hv as (k & <- & _). reflexivity. Qed.
  Lemma ref_len C om N : length (first N (reference C om)) = N.
  Proof. unfold first. rewrite map_length, seq_length. reflexivity. Qed.
  Lemma ref_nth C om N k : (k < N)%nat -> nth k (first N (reference C om)) [] = reference C om k.
  Proof. intros Hk. unfold first. rewrite (nth_indep _ [] (reference C om 0)) by (rewrite map_length, seq_length; exact Hk). rewrite map_nth, seq_nth by exact Hk. reflexivity. Qed.

  (** the two components of the output and what happens to them: y_k in phase, r_k in quadrature *)
  Lemma notch_state C om m (o o' : obj) d N y e w : reachable 2 o -> step_is o C m -> run d (first N (reference C om)) o = (o', Ok (y, e, w)) ->
    exists r, (forall k, (k < N)%nat -> nth k e 0 = nth k d 0 - nth k y 0) /\
      (forall k, (S k < N)%nat -> nth (S k) y 0 = cos om * (nth k y 0 + m * nth k e 0) + sin om * r k /\ r (S k) = cos om * r k - sin om * (nth k y 0 + m * nth k e 0)) /\
      ((0 < N)%nat -> nth 0 y 0 = C * nth 0 (o_w o) 0 /\ r 0%nat = C * nth 1 (o_w o) 0).
  Proof.
    intros Hr HS E. pose proof (reachable_wf _ _ Hr) as Hwf.
    set (W := wrow w (o_w o')). exists (fun k => C * (nth 1 (W k) 0 * cos (om * INR k) - nth 0 (W k) 0 * sin (om * INR k))).
    assert (Ht : forall e v, textbook (o_ext o) (o_mu o) e v <> None) by (intros; destruct HS as [(-> & _)|(eps & -> & _)]; discriminate).
    assert (HG : exists g, m = g * C ^ 2 /\ forall e0 k, textbook (o_ext o) (o_mu o) e0 (reference C om k) = Some (vsc (g * e0) (reference C om k))).
    { destruct HS as [(-> & ->)|(eps & -> & Hn & ->)].
      - exists (o_mu o). split; [ring|]. reflexivity.
      - exists (o_mu o / (eps + C ^ 2)). split; [field; exact Hn|]. intros e0 k. cbn [textbook]. do 4 f_equal. f_equal. unfold normsq, reference. cbn [Rdot].
        pose proof (sin2_cos2 (om * INR k)) as H. unfold Rsqr in H. replace (C ^ 2) with (C ^ 2 * (sin (om * INR k) * sin (om * INR k) + cos (om * INR k) * cos (om * INR k))) by (rewrite H; ring). ring. }
    destruct HG as (g & Hm & HG).
    assert (HK : forall k, (k < N)%nat -> exists a b, W k = [a; b] /\ W (S k) = [a + g * nth k e 0 * (C * cos (om * INR k)); b + g * nth k e 0 * (C * sin (om * INR k))] /\
      nth k y 0 = C * (a * cos (om * INR k) + b * sin (om * INR k)) /\ nth k e 0 = nth k d 0 - nth k y 0).
    { intros k Hk. destruct (run_textbook solve 2 o o' d _ y e w k Hwf (ref_rows C om N) Ht E ltac:(rewrite ref_len; exact Hk)) as (dw & Hdw & Hw & Hy & He & Lw & _).
      rewrite ref_nth in Hdw, Hy by exact Hk. rewrite HG in Hdw. injection Hdw as <-. fold W in Hw, Hy, Lw. fold (W (S k)) in Hw. fold (W k) in Hw, Hy, Lw.
      destruct (W k) as [|a [|b [|]]]; try discriminate Lw. exists a, b. split; [reflexivity|]. split; [rewrite Hw; reflexivity|]. split; [|exact He].
      rewrite Hy. unfold reference. cbn [Rdot]. ring. }
    split; [|split].
    - intros k Hk. destruct (HK k Hk) as (a & b & _ & _ & _ & H). exact H.
    - intros k Hk. destruct (HK k ltac:(lia)) as (a & b & W0 & W1 & Y0 & _). destruct (HK (S k) Hk) as (a' & b' & W1' & _ & Y1 & _).
      rewrite W1' in W1. injection W1 as -> ->. rewrite Y1, W1', W0, cos_S, sin_S, Y0. cbn [nth]. rewrite Hm.
      set (e0 := nth k e 0). set (x1 := cos (om * INR k)). set (x2 := sin (om * INR k)). set (c := cos om). set (s := sin om).
      pose proof (cs1 (om * INR k)) as H. fold x1 x2 in H.
      split.
      + replace (C * ((a + g * e0 * (C * x1)) * (x1 * c - x2 * s) + (b + g * e0 * (C * x2)) * (x2 * c + x1 * s))) with
          (c * (C * (a * x1 + b * x2) + g * C ^ 2 * e0 * (x1 ^ 2 + x2 ^ 2)) + s * (C * (b * x1 - a * x2))) by ring. rewrite H. ring.
      + replace (C * ((b + g * e0 * (C * x2)) * (x1 * c - x2 * s) - (a + g * e0 * (C * x1)) * (x2 * c + x1 * s))) with
          (c * (C * (b * x1 - a * x2)) - s * (C * (a * x1 + b * x2) + g * C ^ 2 * e0 * (x1 ^ 2 + x2 ^ 2))) by ring. rewrite H. ring.
    - intros HN. destruct (HK 0%nat HN) as (a & b & W0 & _ & Y0 & _).
      assert (EW : W 0%nat = o_w o).
      { destruct (run_lengths solve 2 o o' d _ y e w Hwf (ref_rows C om N) E) as (Hl & Hne & Hly & Hle & Hlw & Hy & He & Hw & HO & Hw').
        unfold W, wrow. rewrite app_nth1 by (rewrite Hlw, ref_len; exact HN). rewrite Hw. rewrite wtrace_nth; [reflexivity|exact Hl|rewrite ref_len; exact HN|exact HO]. }
      cbv beta. rewrite <- EW, Y0, W0. change (INR 0) with 0. rewrite Rmult_0_r, cos_0, sin_0. cbn [nth]. split; ring.
  Qed.

  (** *** C123: the errors of the run satisfy the difference equation of a notch filter *)
  Theorem C123_notch : forall C om m (o o' : obj) d N y e w, reachable 2 o -> step_is o C m -> run d (first N (reference C om)) o = (o', Ok (y, e, w)) ->
    (forall k, (S (S k) < N)%nat ->
      nth (S (S k)) e 0 - (2 - m) * cos om * nth (S k) e 0 + (1 - m) * nth k e 0 = nth (S (S k)) d 0 - 2 * cos om * nth (S k) d 0 + nth k d 0) /\
    ((0 < N)%nat -> nth 0 e 0 = nth 0 d 0 - C * nth 0 (o_w o) 0) /\
    ((1 < N)%nat -> nth 1 e 0 = nth 1 d 0 - cos om * (C * nth 0 (o_w o) 0 + m * nth 0 e 0) - sin om * (C * nth 1 (o_w o) 0)).
  Proof.
    intros C om m o o' d N y e w Hr HS E. destruct (notch_state C om m o o' d N y e w Hr HS E) as (r & He & Hs & H0). split; [|split].
    - intros k Hk. destruct (Hs k ltac:(lia)) as (A1 & A2). destruct (Hs (S k) Hk) as (B1 & _).
      rewrite (He (S (S k)) Hk), B1, A2. pose proof (cs1 om) as HC.
      assert (E1 : sin om * r k = nth (S k) y 0 - cos om * (nth k y 0 + m * nth k e 0)) by lra.
      replace (sin om * (cos om * r k - sin om * (nth k y 0 + m * nth k e 0))) with (cos om * (sin om * r k) - sin om ^ 2 * (nth k y 0 + m * nth k e 0)) by ring.
      rewrite E1. replace (sin om ^ 2) with (1 - cos om ^ 2) by lra.
      assert (E2 : nth (S k) d 0 = nth (S k) e 0 + nth (S k) y 0) by (rewrite (He (S k)) by lia; ring).
      assert (E3 : nth k d 0 = nth k e 0 + nth k y 0) by (rewrite (He k) by lia; ring). rewrite E2, E3. ring.
    - intros HN. rewrite (He 0%nat HN). destruct (H0 HN) as (-> & _). reflexivity.
    - intros HN. rewrite (He 1%nat HN). destruct (Hs 0%nat HN) as (-> & _). destruct (H0 ltac:(lia)) as (-> & ->). ring.
  Qed.

  (** *** a tone at the frequency of the reference is removed, whatever else the targets contain, at a geometric rate *)
  Theorem C123_hum_removed : forall C om m A B (o1 o1' o2 o2' : obj) d1 d2 N y1 e1 w1 y2 e2 w2,
    reachable 2 o1 -> reachable 2 o2 -> step_is o1 C m -> step_is o2 C m -> 0 <= m <= 2 ->
    run d1 (first N (reference C om)) o1 = (o1', Ok (y1, e1, w1)) -> run d2 (first N (reference C om)) o2 = (o2', Ok (y2, e2, w2)) ->
    (forall k, (k < N)%nat -> nth k d2 0 = nth k d1 0 + tone A B om k) ->
    (0 <= notch_rate m om <= 1 /\ (0 < m < 2 -> sin om <> 0 -> notch_rate m om < 1)) /\
    forall k, (k < N)%nat -> (nth k e2 0 - nth k e1 0) ^ 2 <=
      notch_rate m om ^ (k / 2) * ((A - C * (nth 0 (o_w o2) 0 - nth 0 (o_w o1) 0)) ^ 2 + (B - C * (nth 1 (o_w o2) 0 - nth 1 (o_w o1) 0)) ^ 2).
  Proof.
    intros C om m A B o1 o1' o2 o2' d1 d2 N y1 e1 w1 y2 e2 w2 R1 R2 S1 S2 Hm E1 E2 Hd.
    destruct (notch_state C om m o1 o1' d1 N y1 e1 w1 R1 S1 E1) as (r1 & He1 & Hs1 & H1).
    destruct (notch_state C om m o2 o2' d2 N y2 e2 w2 R2 S2 E2) as (r2 & He2 & Hs2 & H2).
    split. { split; [apply (rate_range m (cos om) (sin om) (cs1 om) Hm)|]. intros Hm' Hs. unfold notch_rate.
      assert (0 < m * (2 - m) * sin om ^ 2); [|lra]. apply Rmult_lt_0_compat; [apply Rmult_lt_0_compat; lra|]. assert (0 <= sin om ^ 2) by apply pow2_ge_0. assert (sin om ^ 2 <> 0) by (apply pow_nonzero; exact Hs). lra. }
    intros k Hk.
    set (P := fun k => nth k e2 0 - nth k e1 0). set (Q := fun k => B * cos (om * INR k) - A * sin (om * INR k) - (r2 k - r1 k)).
    assert (HP : forall k, (k < N)%nat -> P k = tone A B om k - (nth k y2 0 - nth k y1 0)) by (intros j Hj; unfold P; rewrite He1, He2, Hd by exact Hj; ring).
    pose proof (rot_all m (cos om) (sin om) P Q N (cs1 om) Hm) as HR. specialize (HR ltac:(
      intros j Hj; destruct (Hs1 j Hj) as (A1 & A2); destruct (Hs2 j Hj) as (B1 & B2); split;
      [rewrite (HP (S j)) by exact Hj; unfold Q, tone; rewrite cos_S, sin_S, A1, B1; 
       assert (EP : nth j y2 0 - nth j y1 0 = tone A B om j - P j) by (rewrite (HP j) by lia; ring); unfold tone in EP;
       replace (nth j y2 0) with (nth j y1 0 + (A * cos (om * INR j) + B * sin (om * INR j) - P j)) by lra; 
       replace (nth j e2 0) with (nth j e1 0 + P j) by (unfold P; ring); ring
      |unfold Q; rewrite cos_S, sin_S, A2, B2;
       assert (EP : nth j y2 0 - nth j y1 0 = tone A B om j - P j) by (rewrite (HP j) by lia; ring); unfold tone in EP;
       replace (nth j y2 0) with (nth j y1 0 + (A * cos (om * INR j) + B * sin (om * INR j) - P j)) by lra; 
       replace (nth j e2 0) with (nth j e1 0 + P j) by (unfold P; ring); ring]) k Hk).
    change (nth k e2 0 - nth k e1 0) with (P k). fold (notch_rate m om) in HR. destruct (H1 ltac:(lia)) as (Y1 & Z1). destruct (H2 ltac:(lia)) as (Y2 & Z2).
    assert (EP0 : P 0%nat = A - C * (nth 0 (o_w o2) 0 - nth 0 (o_w o1) 0)).
    { rewrite HP by lia. rewrite Y1, Y2. unfold tone. change (INR 0) with 0. rewrite Rmult_0_r, cos_0, sin_0. ring. }
    assert (EQ0 : Q 0%nat = B - C * (nth 1 (o_w o2) 0 - nth 1 (o_w o1) 0)).
    { unfold Q. rewrite Z1, Z2. change (INR 0) with 0. rewrite Rmult_0_r, cos_0, sin_0. ring. }
    rewrite EP0, EQ0 in HR. pose proof (pow2_ge_0 (Q k)). lra.
  Qed.

  (** *** a tone at another frequency comes out as a tone of that frequency, changed by the gain of the notch *)
  Theorem C123_tone : forall C om m A B th, sin om <> 0 -> 0 < m < 2 -> ~ (cos th = cos om /\ sin th = 0) ->
    exists A' B', A' ^ 2 + B' ^ 2 = notch_gain m om th * (A ^ 2 + B ^ 2) /\
    forall (o o' : obj) d N y e w, reachable 2 o -> step_is o C m -> run d (first N (reference C om)) o = (o', Ok (y, e, w)) ->
      (forall k, (k < N)%nat -> nth k d 0 = tone A B th k) ->
      forall k, (k < N)%nat -> (nth k e 0 - tone A' B' th k) ^ 2 <= notch_rate m om ^ (k / 2) *
        ((A - A' - C * nth 0 (o_w o) 0) ^ 2 + (((A - A') * cos th + (B - B') * sin th - cos om * (A - A' + m * A')) / sin om - C * nth 1 (o_w o) 0) ^ 2).
  Proof.
    intros C om m A B th Hs Hm Hne. set (u := cos th - cos om). set (D := (2 - m) ^ 2 * u ^ 2 + m ^ 2 * sin th ^ 2).
    assert (HD : 0 < D).
    { unfold D. assert (0 <= (2 - m) ^ 2 * u ^ 2) by (apply Rmult_le_pos; apply pow2_ge_0). assert (0 <= m ^ 2 * sin th ^ 2) by (apply Rmult_le_pos; apply pow2_ge_0).
      destruct (Req_dec u 0) as [E|E].
      - assert (sin th <> 0) by (intros E'; apply Hne; unfold u in E; split; [lra|exact E']). assert (0 < m ^ 2 * sin th ^ 2); [|lra].
        apply Rmult_lt_0_compat; [nra|]. pose proof (pow2_ge_0 (sin th)). pose proof (pow_nonzero (sin th) 2 H1). lra.
      - assert (0 < (2 - m) ^ 2 * u ^ 2); [|lra]. apply Rmult_lt_0_compat; [nra|]. pose proof (pow2_ge_0 u). pose proof (pow_nonzero u 2 E). lra. }
    set (h1 := 2 * u * ((2 - m) * u) / D). set (h2 := - (2 * u * (m * sin th)) / D).
    exists (h1 * A + h2 * B), (h1 * B - h2 * A). set (A' := h1 * A + h2 * B). set (B' := h1 * B - h2 * A).
    split.
    { unfold A', B', notch_gain. fold u. fold D. replace ((h1 * A + h2 * B) ^ 2 + (h1 * B - h2 * A) ^ 2) with ((h1 ^ 2 + h2 ^ 2) * (A ^ 2 + B ^ 2)) by ring. f_equal.
      unfold h1, h2. replace ((2 * u * ((2 - m) * u) / D) ^ 2 + (- (2 * u * (m * sin th)) / D) ^ 2) with (4 * u ^ 2 * D / D ^ 2) by (unfold D at 1; field; lra). field. lra. }
    intros o o' d N y e w Hr HS E Hd.
    destruct (notch_state C om m o o' d N y e w Hr HS E) as (r & He & Hst & H0).
    (* the two equations that A' and B' satisfy *)
    assert (Q1 : (2 - m) * u * A' + m * sin th * B' = 2 * u * A).
    { unfold A', B'. replace ((2 - m) * u * (h1 * A + h2 * B) + m * sin th * (h1 * B - h2 * A)) with (((2 - m) * u * h1 - m * sin th * h2) * A + ((2 - m) * u * h2 + m * sin th * h1) * B) by ring.
      replace ((2 - m) * u * h1 - m * sin th * h2) with (2 * u) by (unfold h1, h2; transitivity (2 * u * (D / D)); [field; lra|unfold D at 1; field; lra]).
      replace ((2 - m) * u * h2 + m * sin th * h1) with 0 by (unfold h1, h2; field; lra). ring. }
    assert (Q2 : (2 - m) * u * B' - m * sin th * A' = 2 * u * B).
    { unfold A', B'. replace ((2 - m) * u * (h1 * B - h2 * A) - m * sin th * (h1 * A + h2 * B)) with (((2 - m) * u * h1 - m * sin th * h2) * B - ((2 - m) * u * h2 + m * sin th * h1) * A) by ring.
      replace ((2 - m) * u * h1 - m * sin th * h2) with (2 * u) by (unfold h1, h2; transitivity (2 * u * (D / D)); [field; lra|unfold D at 1; field; lra]).
      replace ((2 - m) * u * h2 + m * sin th * h1) with 0 by (unfold h1, h2; field; lra). ring. }
    clearbody A' B'. clear h1 h2.
    (* the steady state: output Y, quadrature component Z *)
    set (p := tone A' B' th). set (Y := tone (A - A') (B - B') th). set (c := cos om) in *. set (s := sin om) in *.
    set (Z := fun k => (Y (S k) - c * (Y k + m * p k)) / s).
    assert (HZ : forall k, s * Z k = Y (S k) - c * (Y k + m * p k)) by (intros k; unfold Z; field; exact Hs).
    assert (HY : forall k, Y (S (S k)) - 2 * c * Y (S k) + (Y k + m * p k) - m * c * p (S k) = 0).
    { intros k. unfold Y, p, tone. rewrite (cos_S th (S k)), (sin_S th (S k)).
      set (x1 := cos (th * INR (S k))). set (x2 := sin (th * INR (S k))).
      assert (F : cos (th * INR k) = x1 * cos th + x2 * sin th /\ sin (th * INR k) = x2 * cos th - x1 * sin th).
      { unfold x1, x2. rewrite cos_S, sin_S. pose proof (cs1 th) as H1. set (a := cos (th * INR k)). set (b := sin (th * INR k)). set (ct := cos th) in *. set (st := sin th) in *.
        replace ((a * ct - b * st) * ct + (b * ct + a * st) * st) with (a * (ct ^ 2 + st ^ 2)) by ring. replace ((b * ct + a * st) * ct - (a * ct - b * st) * st) with (b * (ct ^ 2 + st ^ 2)) by ring. rewrite H1. split; ring. }
      destruct F as (-> & ->). 
      assert (EC : cos th = u + c) by (unfold u; ring). rewrite EC.
      replace ((A - A') * (x1 * (u + c) - x2 * sin th) + (B - B') * (x2 * (u + c) + x1 * sin th) - 2 * c * ((A - A') * x1 + (B - B') * x2) +
        ((A - A') * (x1 * (u + c) + x2 * sin th) + (B - B') * (x2 * (u + c) - x1 * sin th) + m * (A' * (x1 * (u + c) + x2 * sin th) + B' * (x2 * (u + c) - x1 * sin th))) - m * c * (A' * x1 + B' * x2))
        with (x1 * (2 * u * A - ((2 - m) * u * A' + m * sin th * B')) + x2 * (2 * u * B - ((2 - m) * u * B' - m * sin th * A'))) by ring.
      rewrite Q1, Q2. ring. }
    assert (HZ2 : forall k, Z (S k) = c * Z k - s * (Y k + m * p k)).
    { intros k. apply (Rmult_eq_reg_l s); [|exact Hs]. rewrite HZ. replace (s * (c * Z k - s * (Y k + m * p k))) with (c * (s * Z k) - s ^ 2 * (Y k + m * p k)) by ring.
      rewrite HZ. pose proof (cs1 om) as HC. fold c s in HC. replace (s ^ 2) with (1 - c ^ 2) by lra. specialize (HY k). lra. }
    set (P := fun k => nth k e 0 - p k). set (Q := fun k => Z k - r k).
    assert (HP : forall k, (k < N)%nat -> P k = Y k - nth k y 0).
    { intros k Hk. unfold P, Y, p. rewrite He, Hd by exact Hk. unfold tone. ring. }
    assert (HPQ : forall k, (S k < N)%nat -> P (S k) = c * (1 - m) * P k + s * Q k /\ Q (S k) = c * Q k - s * (1 - m) * P k).
    { intros k Hk. destruct (Hst k Hk) as (A1 & A2). fold c s in A1, A2.
      assert (EE : nth k e 0 = P k + p k) by (unfold P; ring). assert (EY : nth k y 0 = Y k - P k) by (rewrite (HP k) by lia; ring). rewrite EE, EY in A1, A2. split.
      - rewrite (HP (S k)) by exact Hk. rewrite A1. unfold Q. specialize (HZ k). lra.
      - unfold Q. rewrite A2, HZ2. ring. }
    intros k Hk. pose proof (rot_all m c s P Q N (cs1 om) ltac:(lra) HPQ k Hk) as HR. change (1 - m * (2 - m) * s ^ 2 / 3) with (notch_rate m om) in HR.
    change (nth k e 0 - p k) with (P k). destruct (H0 ltac:(lia)) as (Y0 & Z0).
    assert (EP0 : P 0%nat = A - A' - C * nth 0 (o_w o) 0).
    { rewrite HP by lia. rewrite Y0. unfold Y, tone. change (INR 0) with 0. rewrite Rmult_0_r, cos_0, sin_0. ring. }
    assert (EQ0 : Q 0%nat = ((A - A') * cos th + (B - B') * sin th - c * (A - A' + m * A')) / s - C * nth 1 (o_w o) 0).
    { unfold Q. rewrite Z0. f_equal. unfold Z. f_equal. unfold Y, p, tone. change (INR 0) with 0. change (INR 1) with 1. rewrite Rmult_0_r, Rmult_1_r, cos_0, sin_0. ring. }
    rewrite EP0, EQ0 in HR. pose proof (pow2_ge_0 (Q k)). lra.
  Qed.

  (** the gain is 0 at the frequency of the reference, never above 2 / (2 - m), and close to 1 elsewhere for a small step *)
  Theorem C123_gain : forall m om th, 0 < m < 2 -> cos th <> cos om ->
    notch_gain m om om = 0 /\ 0 < notch_gain m om th <= (2 / (2 - m)) ^ 2 /\
    1 - m ^ 2 * sin th ^ 2 / (4 * (cos th - cos om) ^ 2) <= notch_gain m om th.
  Proof.
    intros m om th Hm Hne. set (u := cos th - cos om). assert (Hu : u <> 0) by (unfold u; lra).
    assert (U : 0 < u ^ 2) by (pose proof (pow2_ge_0 u); pose proof (pow_nonzero u 2 Hu); lra).
    assert (M2 : 0 < (2 - m) ^ 2) by nra. assert (V : 0 <= m ^ 2 * sin th ^ 2) by (apply Rmult_le_pos; apply pow2_ge_0).
    assert (W : 0 < (2 - m) ^ 2 * u ^ 2) by (apply Rmult_lt_0_compat; assumption). set (v := m ^ 2 * sin th ^ 2) in *. unfold notch_gain. fold u. fold v.
    split; [|split; [split|]].
    - replace (cos om - cos om) with 0 by ring. unfold Rdiv. ring.
    - apply Rmult_lt_0_compat; [lra|apply Rinv_0_lt_compat; lra].
    - apply (Rmult_le_reg_r ((2 - m) ^ 2 * u ^ 2 + v)); [lra|]. unfold Rdiv at 1. rewrite Rmult_assoc, Rinv_l, Rmult_1_r by lra.
      replace ((2 / (2 - m)) ^ 2 * ((2 - m) ^ 2 * u ^ 2 + v)) with (4 * u ^ 2 + (2 / (2 - m)) ^ 2 * v) by (field; lra).
      assert (0 <= (2 / (2 - m)) ^ 2 * v) by (apply Rmult_le_pos; [apply pow2_ge_0|exact V]). lra.
    - apply (Rmult_le_reg_r ((2 - m) ^ 2 * u ^ 2 + v)); [lra|]. unfold Rdiv at 2. rewrite (Rmult_assoc (4 * u ^ 2)), Rinv_l, Rmult_1_r by lra.
      assert (M4 : (2 - m) ^ 2 * u ^ 2 <= 4 * u ^ 2) by (apply Rmult_le_compat_r; [lra|nra]).
      set (q := v / (4 * u ^ 2)). assert (Hq : q * (4 * u ^ 2) = v) by (unfold q; field; lra). assert (Q0 : 0 <= q) by (apply Rmult_le_pos; [exact V|left; apply Rinv_0_lt_compat; lra]).
      set (t := (2 - m) ^ 2 * u ^ 2) in *. replace ((1 - q) * (t + v)) with (t - q * t + v - q * v) by ring. rewrite <- Hq at 1.
      assert (0 <= q * v) by (apply Rmult_le_pos; assumption).
      destruct (Rle_lt_dec q 1) as [Hq1|Hq1].
      + assert (0 <= (1 - q) * (4 * u ^ 2 - t)) by (apply Rmult_le_pos; lra). lra.
      + assert (0 <= (q - 1) * t) by (apply Rmult_le_pos; lra). assert (q * v = q * (q * (4 * u ^ 2))) by (rewrite Hq; reflexivity).
        assert (0 <= q * (4 * u ^ 2) * (q - 1)) by (apply Rmult_le_pos; [apply Rmult_le_pos|]; lra). lra.
  Qed.

  (** *** a constant input: the offset of the targets is removed *)
  Theorem C123_offset : forall C m (o o' : obj) d N y e w, reachable 1 o -> step_is o C m -> run d (repeat [C] N) o = (o', Ok (y, e, w)) ->
    (forall k, (S k < N)%nat -> nth (S k) e 0 = (1 - m) * nth k e 0 + (nth (S k) d 0 - nth k d 0)) /\ ((0 < N)%nat -> nth 0 e 0 = nth 0 d 0 - C * nth 0 (o_w o) 0).
  Proof.
    intros C m o o' d N y e w Hr HS E. pose proof (reachable_wf _ _ Hr) as Hwf.
    assert (HX : forall k, (k < N)%nat -> nth k (repeat [C] N) [] = [C]) by (intros k Hk; apply (repeat_spec N); apply nth_In; rewrite repeat_length; exact Hk).
    assert (Hrows : rowsl 1 (repeat [C] N)) by (apply Forall_forall; intros v Hv; apply repeat_spec in Hv; subst v; reflexivity).
    set (W := wrow w (o_w o')).
    assert (Ht : forall e v, textbook (o_ext o) (o_mu o) e v <> None) by (intros; destruct HS as [(-> & _)|(eps & -> & _)]; discriminate).
    assert (HG : exists g, m = g * C ^ 2 /\ forall e0, textbook (o_ext o) (o_mu o) e0 [C] = Some (vsc (g * e0) [C])).
    { destruct HS as [(-> & ->)|(eps & -> & Hn & ->)].
      - exists (o_mu o). split; [ring|]. reflexivity.
      - exists (o_mu o / (eps + C ^ 2)). split; [field; exact Hn|]. intros e0. cbn [textbook]. do 4 f_equal. f_equal. unfold normsq. cbn [Rdot]. ring. }
    destruct HG as (g & Hm & HG).
    assert (HK : forall k, (k < N)%nat -> exists a, W k = [a] /\ W (S k) = [a + g * nth k e 0 * C] /\ nth k e 0 = nth k d 0 - C * a).
    { intros k Hk. destruct (run_textbook solve 1 o o' d _ y e w k Hwf Hrows Ht E ltac:(rewrite repeat_length; exact Hk)) as (dw & Hdw & Hw & Hy & He & Lw & _).
      rewrite HX in Hdw, Hy by exact Hk. rewrite HG in Hdw. injection Hdw as <-. fold W in Hw, Hy, Lw. fold (W (S k)) in Hw. fold (W k) in Hw, Hy, Lw.
      destruct (W k) as [|a [|]]; try discriminate Lw. exists a. split; [reflexivity|]. split; [rewrite Hw; reflexivity|]. rewrite He, Hy. cbn [Rdot]. ring. }
    split.
    - intros k Hk. destruct (HK k ltac:(lia)) as (a & _ & W1 & E0). destruct (HK (S k) Hk) as (a' & W1' & _ & E1). rewrite W1' in W1. injection W1 as ->.
      rewrite E1, Hm. replace (nth (S k) d 0 - C * (a + g * nth k e 0 * C)) with (nth (S k) d 0 - C * a - g * C ^ 2 * nth k e 0) by ring.
      replace (C * a) with (nth k d 0 - nth k e 0) by lra. ring.
    - intros HN. destruct (HK 0%nat HN) as (a & W0 & _ & E0).
      assert (EW : W 0%nat = o_w o).
      { destruct (run_lengths solve 1 o o' d _ y e w Hwf Hrows E) as (Hl & Hne & Hly & Hle & Hlw & Hy & He & Hw & HO & Hw').
        unfold W, wrow. rewrite app_nth1 by (rewrite Hlw, repeat_length; exact HN). rewrite Hw. rewrite wtrace_nth; [reflexivity|exact Hl|rewrite repeat_length; exact HN|exact HO]. }
      rewrite <- EW, W0, E0. reflexivity.
  Qed.

  (** *** hypotheses: a reference with a quarter period per sample, a hum of amplitude 3 on constant targets, LMS and NLMS *)
  Example C123_hypotheses :
    let o1 := fresh2 (1 / 2) XLMS in let o2 := fresh2 1 (XNLMS 1) in
    let d1 := map (fun _ => 1) (seq 0 20) in let d2 := map (fun k => 1 + tone 3 1 (PI / 2) k) (seq 0 20) in let d3 := map (tone 1 1 PI) (seq 0 20) in
    reachable 2 o1 /\ reachable 2 o2 /\ step_is o1 1 (1 / 2) /\ step_is o2 1 (1 / 2) /\ sin (PI / 2) <> 0 /\ cos PI <> cos (PI / 2) /\
    notch_rate (1 / 2) (PI / 2) = 3 / 4 /\ notch_gain (1 / 2) (PI / 2) PI = (4 / 3) ^ 2 /\
    (forall k, (k < 20)%nat -> nth k d2 0 = nth k d1 0 + tone 3 1 (PI / 2) k) /\ (forall k, (k < 20)%nat -> nth k d3 0 = tone 1 1 PI k) /\
    (exists o' y e w, run d1 (first 20 (reference 1 (PI / 2))) o1 = (o', Ok (y, e, w))) /\
    (exists o' y e w, run d2 (first 20 (reference 1 (PI / 2))) o2 = (o', Ok (y, e, w))) /\
    (exists o' y e w, run d3 (first 20 (reference 1 (PI / 2))) o2 = (o', Ok (y, e, w))).
  Proof.
    intros o1 o2 d1 d2 d3.
    assert (R1 : reachable 2 o1) by (apply (fresh2_reachable solve (1 / 2) None None None KLMS); reflexivity).
    assert (R2 : reachable 2 o2) by (apply (fresh2_reachable solve 1 (Some 1) None None KNLMS); reflexivity).
    split; [exact R1|]. split; [exact R2|].
    split; [left; split; [reflexivity|cbn; field]|]. split; [right; exists 1; split; [reflexivity|]; split; [lra|cbn; field]|].
    split; [rewrite sin_PI2; lra|]. split; [rewrite cos_PI, cos_PI2; lra|].
    split; [unfold notch_rate; rewrite sin_PI2; field|]. split; [unfold notch_gain; rewrite cos_PI, cos_PI2, sin_PI; field|].
    assert (LM : forall f : nat -> R, length (map f (seq 0 20)) = length (first 20 (reference 1 (PI / 2)))) by (intros; rewrite map_length, seq_length, ref_len; reflexivity).
    assert (HN : first 20 (reference 1 (PI / 2)) <> []) by discriminate.
    assert (NM : forall (f : nat -> R) k, (k < 20)%nat -> nth k (map f (seq 0 20)) 0 = f k).
    { intros f k Hk. rewrite (nth_indep _ 0 (f 0%nat)) by (rewrite map_length, seq_length; exact Hk). rewrite map_nth, seq_nth by exact Hk. reflexivity. }
    split; [intros k Hk; unfold d1, d2; rewrite !NM by exact Hk; reflexivity|]. split; [intros k Hk; unfold d3; rewrite NM by exact Hk; reflexivity|].
    repeat split; (apply (run_exists solve 2); [assumption|apply ref_rows|apply LM|exact HN|intros ex; unfold soft_exn; cbn; auto]).
  Qed.
End S.
