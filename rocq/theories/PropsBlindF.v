(** C99 for IEEE binary64, with any order of summation and any tanh that maps nan to nan: nan meets the hypotheses of
    PropsBlind.v; and the multiscale learning entropy is a number between 0 and 1 for every history, nan or not. *)
From Coq Require Import ZArith QArith Qreals Reals Lra Psatz Permutation Uint63 FloatOps FloatAxioms SpecFloat.
From Coq Require PrimFloat.
From Flocq Require Import Core BinarySingleNaN.
From Flocq Require IEEE754.PrimFloat.
From Verif Require Import Py Num NumF Numpy Filters Registry Spec Detection RMat RVec FloatErr PropsOCNLMSF PropsNan PropsNanF PropsLatency PropsBlind PropsRound PropsRoundRun PropsWindup PropsNoOverflow PropsMeasureF PropsSaturate.
Open Scope R_scope.
#[local] Existing Instance Flocq.IEEE754.PrimFloat.Hprec.
#[local] Existing Instance Flocq.IEEE754.PrimFloat.Hmax.
#[local] Notation bin := Flocq.IEEE754.PrimFloat.Prim2B.
#[local] Notation nan := PrimFloat.nan.

Lemma bin_nan : bin nan = B754_nan.
Proof. vm_compute. reflexivity. Qed.
Lemma nan_bin a : bin a = B754_nan -> a = nan.
Proof. intros H. apply Flocq.IEEE754.PrimFloat.Prim2B_inj. rewrite bin_nan. exact H. Qed.
Lemma evaluates_nan l r : evaluates l r -> (exists p, In p l /\ (fst p = nan \/ snd p = nan)) -> r = nan.
Proof.
  induction 1 as [|a b|l1 l2 r1 r2 H1 IH1 H2 IH2|a b l r s H IH Hf|l l' r HP H IH]; intros (p & Hp & Hn).
  - destruct Hp.
  - destruct Hp as [<-|[]]. cbn [fst snd] in Hn. destruct Hn as [-> | ->]; [apply mul_nan_l|apply mul_nan_r].
  - apply in_app_or in Hp as [Hp|Hp].
    + rewrite IH1 by (exists p; auto). apply add_nan_l.
    + rewrite IH2 by (exists p; auto). apply add_nan_r.
  - apply nan_bin. unfold fused in Hf. rewrite Hf. destruct Hp as [<-|Hp].
    + cbn [fst snd] in Hn. destruct Hn as [-> | ->]; rewrite bin_nan; [|destruct (bin a)]; reflexivity.
    + rewrite IH by (exists p; auto). rewrite bin_nan. destruct (bin a) as [[]|[]| |[]], (bin b) as [[]|[]| |[]]; reflexivity.
  - apply IH. exists p. split; [|exact Hn]. eapply Permutation_in; [apply Permutation_sym, HP|exact Hp].
Qed.
Lemma sums_nan l r : sums l r -> In nan l -> r = nan.
Proof.
  intros H Hi. apply sums_evaluates in H. apply (evaluates_nan _ _ H). exists (nan, PrimFloat.one). split; [|left; reflexivity].
  apply (in_map (fun a => (a, PrimFloat.one))). exact Hi.
Qed.
Lemma ltb_nan_l a : PrimFloat.ltb nan a = false.
Proof. rewrite FloatAxioms.ltb_spec, nan_SF. destruct (Prim2SF a); reflexivity. Qed.
Lemma ltb_nan_r a : PrimFloat.ltb a nan = false.
Proof. rewrite FloatAxioms.ltb_spec, nan_SF. destruct (Prim2SF a) as [[]|[]| |[]]; reflexivity. Qed.
Lemma not_self a : PrimFloat.eqb a a = false -> a = nan.
Proof.
  intros H. apply is_nan_SF. rewrite FloatAxioms.eqb_spec in H. destruct (Prim2SF a) as [s|s| |s m e] eqn:E; try reflexivity; exfalso.
  1-3: assert (N : SFeqb (Prim2SF a) (Prim2SF a) = true) by (apply SF_refl; rewrite E; discriminate); rewrite E, H in N; discriminate.
Qed.
Lemma div_nan_l a : PrimFloat.div nan a = nan.
Proof. apply is_nan_SF. rewrite div_spec, nan_SF. destruct (Prim2SF a); reflexivity. Qed.

Section F.
  Variable solve : list (list float) -> list (list float) -> option (list (list float)).
  Variables (tanh exp : float -> float) (power : float -> float -> float) (sum : list float -> float) (dot : list float -> list float -> float).
  Hypothesis dot_ok : forall u v, length u = length v -> evaluates (combine u v) (dot u v).
  Hypothesis sum_ok : forall l, sums l (sum l).
  Hypothesis tanh_nan : tanh nan = nan.
  #[local] Hint Extern 0 (Num float) => exact (FNumD solve tanh exp power sum dot) : typeclass_instances.

  Theorem C99_nan : absorbing nan /\ unordered nan /\ counting (T := float).
  Proof.
    split; [|split].
    - split; try (intros a; first [apply add_nan_l|apply add_nan_r|apply sub_nan_l|apply sub_nan_r|apply mul_nan_l|apply mul_nan_r]).
      + vm_compute; reflexivity.
      + exact tanh_nan.
      + vm_compute; reflexivity.
      + intros u v Hl H. apply (evaluates_nan _ _ (dot_ok u v Hl)). destruct H as [H|H]; apply (In_nth _ _ nan) in H as (i & Hi & E);
          exists (nth i u nan, nth i v nan); (split; [rewrite <- combine_nth by exact Hl; apply nth_In; rewrite combine_length; lia|cbn [fst snd]; tauto]).
    - split; try (intros a; first [apply ltb_nan_l|apply ltb_nan_r|apply div_nan_l]).
      + vm_compute; reflexivity.
      + intros a. apply not_self.
      + vm_compute; reflexivity.
      + intros l. apply sums_nan, sum_ok.
    - split; [vm_compute; reflexivity|vm_compute; reflexivity|]. intros i Hi Hs.
      change (PrimFloat.div (f_of_Z 0) (f_of_Z (Z.of_nat i)) = f_of_Z 0).
      destruct (count_val i Hs) as (F & V). apply Flocq.IEEE754.PrimFloat.Prim2B_inj. rewrite Flocq.IEEE754.PrimFloat.div_equiv.
      rewrite fin_B in F. rewrite val_B in V.
      assert (P : 0 < INR i) by (apply lt_0_INR; exact Hi).
      assert (Z0 : bin (f_of_Z 0) = B754_zero false) by (vm_compute; reflexivity). rewrite Z0.
      destruct (bin (f_of_Z (Z.of_nat i))) as [s|s| |s m e Hm]; try discriminate; [cbn in V; lra|].
      destruct s; [|reflexivity]. exfalso. cbn in V. assert (F2R (Float radix2 (Zneg m) e) < 0) by (apply F2R_lt_0; reflexivity). unfold F2R in *. cbn in *. lra.
  Qed.

  Lemma count_le (l : list bool) : (count_true l <= length l)%nat.
  Proof. induction l as [|[] l IH]; cbn [count_true length]; lia. Qed.
  Lemma int_rnd k : (Z.of_nat k < 2 ^ 53)%Z -> rnd (INR k) = INR k.
  Proof. intros H. destruct (count_val k H) as (_ & <-). apply rnd_val. Qed.
  Lemma int_cap k : (Z.of_nat k < 2 ^ 53)%Z -> INR k <= cap / 2.
  Proof.
    intros H. apply Rle_trans with (2 ^ 53).
    - rewrite INR_IZR_INZ. replace (2 ^ 53) with (IZR (2 ^ 53)) by (symmetry; exact (pow_IZR 2 53)). apply IZR_le. lia.
    - unfold cap. replace (2 ^ 1000) with (2 ^ 999 * 2) by (change 1000%nat with (1 + 999)%nat; rewrite pow_add; lra).
      replace (2 ^ 999 * 2 / 2) with (2 ^ 999) by lra. apply Rle_pow; [lra|]. apply Nat.leb_le. vm_compute. reflexivity.
  Qed.
  (** every value is the quotient of two counts, correctly rounded, so it lies between 0 and 1, whatever w contains *)
  Theorem C99_range : forall c w m order alphas le, (0 < c)%nat -> alphas <> [] -> (Z.of_nat (c * length alphas) < 2 ^ 53)%Z ->
    learning_entropy c w m order (AlphaList alphas) = Ok (LeSeries le) ->
    length le = length w /\ forall j, (j < length w)%nat ->
      fin (nth j le PrimFloat.zero) /\ 0 <= val (nth j le PrimFloat.zero) <= 1 /\
      exists K, (K <= c * length alphas)%nat /\ val (nth j le PrimFloat.zero) = rnd (INR K / INR (c * length alphas)).
  Proof.
    intros c w m order al le Hc Ha Hs H. unfold learning_entropy, not_alpha in H. destruct (order <? 0)%Z; [discriminate|].
    destruct (Nat.eqb_spec (length al) 0) as [E|E]; [discriminate|]. injection H as <-.
    assert (HLd : length (le_dw (Z.to_nat order) w) = length w) by apply le_dw_len.
    split; [unfold le_multiscale; rewrite map_length, seq_length; exact HLd|].
    intros j Hj. pose proof (multiscale_nth c m (le_dw (Z.to_nat order) w) al j ltac:(lia)) as HN. change (@n0 float _) with PrimFloat.zero in HN at 1.
    rewrite HN. clear HN. set (M := (c * length al)%nat) in *. assert (PM : 0 < INR M) by (apply lt_0_INR; unfold M; destruct c, (length al); lia).
    destruct (j <? m)%nat.
    - split; [exact I|]. change (@n0 float _) with PrimFloat.zero. rewrite zero_val. split; [lra|]. exists 0%nat. split; [lia|]. cbn [INR]. unfold Rdiv. rewrite Rmult_0_l, rnd_0. reflexivity.
    - set (cnt := fun alpha : float => count_true (map2 (fun a d => nltb (nmul a alpha) d) (le_awd c m (le_dw (Z.to_nat order) w) j) (nth j (le_dw (Z.to_nat order) w) []))).
      assert (HF : forall l s K, fin s -> val s = INR K -> (Z.of_nat (K + c * length l) < 2 ^ 53)%Z ->
        exists K', (K' <= K + c * length l)%nat /\ fin (fold_left (fun s alpha => nadd s (nofnat (cnt alpha))) l s) /\
          val (fold_left (fun s alpha => nadd s (nofnat (cnt alpha))) l s) = INR K').
      { clear - Hc. induction l as [|a l IH]; intros s K Fs Vs HK; cbn [fold_left length] in *; [exists K; split; [lia|auto]|].
        assert (HC : (cnt a <= c)%nat).
        { unfold cnt. etransitivity; [apply count_le|]. rewrite map2_len. rewrite awd_len. lia. }
        assert (HK1 : (Z.of_nat (cnt a) < 2 ^ 53)%Z) by nia. destruct (count_val (cnt a) HK1) as (F1 & V1).
        assert (HK2 : (Z.of_nat (K + cnt a) < 2 ^ 53)%Z) by nia.
        assert (FA : fin (PrimFloat.add s (f_of_Z (Z.of_nat (cnt a))))).
        { apply add_ok; auto. rewrite Vs, V1, !Rabs_pos_eq by apply pos_INR. assert (HK0 : (Z.of_nat K < 2 ^ 53)%Z) by nia. pose proof (int_cap _ HK1). pose proof (int_cap _ HK0). lra. }
        destruct (IH (PrimFloat.add s (f_of_Z (Z.of_nat (cnt a)))) (K + cnt a)%nat FA) as (K' & A & B).
        - rewrite (add_round _ _ FA), Vs, V1, <- plus_INR. apply int_rnd. exact HK2.
        - nia.
        - exists K'. split; [nia|exact B]. }
      destruct (HF al PrimFloat.zero 0%nat I zero_val) as (K & HK & FK & VK); [exact Hs|]. cbn [plus] in HK.
      change (fold_left _ al n0) with (fold_left (fun s alpha => nadd s (nofnat (cnt alpha))) al PrimFloat.zero).
      set (S0 := fold_left _ al PrimFloat.zero) in *. clearbody S0. destruct (count_val M Hs) as (FM & VM).
      change (ndiv S0 (nofnat M)) with (PrimFloat.div S0 (f_of_Z (Z.of_nat M))).
      assert (Q : 0 <= INR K / INR M <= 1).
      { split; [apply Rmult_le_pos; [apply pos_INR|apply Rlt_le, Rinv_0_lt_compat; exact PM]|]. apply (Rmult_le_reg_r (INR M)); [exact PM|]. unfold Rdiv. rewrite Rmult_assoc, Rinv_l by lra. rewrite Rmult_1_r, Rmult_1_l. apply le_INR. exact HK. }
      assert (FD : fin (PrimFloat.div S0 (f_of_Z (Z.of_nat M)))).
      { apply div_ok; auto; rewrite VM; [lra|]. rewrite VK, Rabs_pos_eq by lra. pose proof cap_big. lra. }
      destruct (div_round S0 (f_of_Z (Z.of_nat M)) FD FM) as (_ & VD); [rewrite VM; lra|]. rewrite VK, VM in VD.
      split; [exact FD|]. rewrite VD. split.
      + split; [apply rnd_nonneg; lra|]. apply Rle_trans with (rnd 1); [apply rnd_le; lra|]. rewrite rnd_1. lra.
      + exists K. split; [exact HK|reflexivity].
  Qed.
End F.

(** *** the filter of PropsRound.v on six samples; the target of sample 3 is nan.  The detector fires before (a jump of the
    target at sample 1), and says 0 ever after; ELBND says nan from sample 3 on *)
#[local] Hint Extern 0 (Num float) => exact round_num : typeclass_instances.
Definition blind_d : list float := [PrimFloat.zero; PrimFloat.one; PrimFloat.two; nan; PrimFloat.one; PrimFloat.two].
Definition blind_x : list (list float) := repeat [PrimFloat.one; PrimFloat.two] 6.
Lemma plain_sums_acc l : forall k a, sums k a -> sums (k ++ l) (fold_left PrimFloat.add l a).
Proof.
  induction l as [|b l IH]; intros k a H; cbn [fold_left]; [rewrite app_nil_r; exact H|].
  replace (k ++ b :: l) with ((k ++ [b]) ++ l) by (rewrite <- app_assoc; reflexivity). apply IH. apply sum_add; [exact H|apply sum_one].
Qed.
Theorem C99_hypotheses :
  (forall u v, length u = length v -> evaluates (combine u v) (plain_dot u v)) /\ (forall l, sums l (plain_sum l)) /\
  solver_shapes (T := float) /\ reachable 2 round_filter /\ is_base round_filter = false /\ nth 3 blind_d n0 = nan /\
  exists o' y e w le r, run blind_d blind_x round_filter = (o', Ok (y, e, w)) /\
    learning_entropy 2 w 1 1 (AlphaList [PrimFloat.one; PrimFloat.two]) = Ok (LeSeries le) /\
    nth 2 le n0 = PrimFloat.one /\ firstn 2 (skipn 4 le) = [PrimFloat.zero; PrimFloat.zero] /\
    ELBND 2 w e "max" = Ok r /\ PrimFloat.ltb PrimFloat.zero (nth 1 r n0) = true /\ skipn 3 r = [nan; nan; nan].
Proof.
  split; [exact plain_dot_ok|]. split; [intros l; exact (plain_sums_acc l [] PrimFloat.zero sum_zero)|].
  split; [intros k A B X _ _ _ _ H; discriminate H|]. split; [exact round_reachable|]. split; [reflexivity|]. split; [reflexivity|].
  eexists _, _, _, _, _, _. split; [vm_compute; reflexivity|]. split; [vm_compute; reflexivity|].
  split; [vm_compute; reflexivity|]. split; [vm_compute; reflexivity|]. split; [vm_compute; reflexivity|]. split; vm_compute; reflexivity.
Qed.
