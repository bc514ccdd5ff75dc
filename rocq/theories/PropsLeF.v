(** C131: learning entropy in binary64. *)
From Coq Require Import ZArith QArith Qreals Reals Lra Psatz Permutation Uint63 FloatOps FloatAxioms SpecFloat String.
From Coq Require PrimFloat.
From Flocq Require Import Core BinarySingleNaN.
From Flocq Require IEEE754.PrimFloat.
From Verif Require Import Py Num NumF Numpy Detection PropsMisc RMat RVec PropsDetection FloatErr PropsRound PropsRoundRun PropsWindup PropsNoOverflow PropsMeasureF PropsStdF PropsElbndF PropsGrid PropsSaturate.
Open Scope R_scope.
#[local] Existing Instance Flocq.IEEE754.PrimFloat.Hprec.
#[local] Existing Instance Flocq.IEEE754.PrimFloat.Hmax.
#[local] Notation bin := Flocq.IEEE754.PrimFloat.Prim2B.
#[local] Notation sqrt := R_sqrt.sqrt.
#[local] Notation zero := PrimFloat.zero.

(** ** Specification *)
(** the o-th differences of weight i, computed with rounded subtractions: entry j is about samples j .. j+o *)
Fixpoint dF (o : nat) (w : list (list float)) (j i : nat) : float :=
  match o with O => entF w j i | S o' => PrimFloat.sub (dF o' w (S j) i) (dF o' w j i) end.
(** what the code looks at for sample j: the weights themselves before sample o, then the absolute differences *)
Definition incF (o : nat) (w : list (list float)) (j i : nat) : float := if (j <? o)%nat then entF w j i else PrimFloat.abs (dF o w (j - o) i).
(** the m samples before sample k *)
Definition windowF (o m : nat) (w : list (list float)) (k i : nat) : list float := map (fun t => incF o w (k - m + t) i) (seq 0 m).
(** the double written 1e-10 in the source *)
Definition epsF : float := PrimFloat.div (f_of_Z 1) (f_of_Z 10000000000).

Lemma eps_facts : fin epsF /\ / 2 ^ 34 <= val epsF <= / 2 ^ 33.
Proof.
  split; [apply finb_ok; vm_compute; reflexivity|]. rewrite val_Q.
  assert (A : forall p, / 2 ^ p = Q2R (1 # Pos.pow 2 (Pos.of_nat p)) -> True) by auto. clear A.
  assert (E34 : / 2 ^ 34 = Q2R (1 # 17179869184)) by (unfold Q2R; cbn [Qnum Qden]; rewrite Rmult_1_l; f_equal; exact (pow_IZR 2 34)).
  assert (E33 : / 2 ^ 33 = Q2R (1 # 8589934592)) by (unfold Q2R; cbn [Qnum Qden]; rewrite Rmult_1_l; f_equal; exact (pow_IZR 2 33)).
  rewrite E34, E33. split; apply Qle_Rle, Qle_bool_iff; vm_compute; reflexivity.
Qed.

Lemma sub_size a b (t : nat) : fin a -> fin b -> (t <= 900)%nat -> Rabs (val a) <= 2 ^ t -> Rabs (val b) <= 2 ^ t ->
  fin (PrimFloat.sub a b) /\ Rabs (val (PrimFloat.sub a b)) <= 2 ^ (t + 2) /\ exists d, Rabs d <= uro /\ val (PrimFloat.sub a b) = (val a - val b) * (1 + d).
Proof.
  intros Fa Fb Ht Ba Bb. assert (E2 : 2 ^ (t + 2) = 4 * 2 ^ t) by (rewrite pow_add; simpl; ring). assert (P : 0 < 2 ^ t) by (apply pow_lt; lra).
  assert (F : fin (PrimFloat.sub a b)). { apply sub_ok; auto. unfold cap. apply Rle_trans with (2 ^ (t + 2)); [lra|apply Rle_pow; [lra|lia]]. }
  split; [exact F|]. destruct (sub_err _ _ F) as (d & Hd & E). split; [|exists d; auto]. rewrite E, Rabs_mult, E2.
  assert (U1 : uro <= 1). { eapply Rle_trans; [apply uro_small|]. rewrite <- Rinv_1. apply Rinv_le_contravar; [lra|apply pow_R1_Rle; lra]. }
  assert (A : Rabs (val a - val b) <= 2 * 2 ^ t) by (unfold Rminus; eapply Rle_trans; [apply Rabs_triang|rewrite Rabs_Ropp; lra]).
  assert (B : Rabs (1 + d) <= 2) by (eapply Rle_trans; [apply Rabs_triang|rewrite Rabs_R1; lra]).
  replace (4 * 2 ^ t) with (2 * 2 ^ t * 2) by ring. apply Rmult_le_compat; auto using Rabs_pos.
Qed.
Lemma avg_abs_bound (l : rvec) b : l <> [] -> (forall a, In a l -> Rabs a <= b) -> avg_abs l <= b /\ Rabs (avg l) <= b.
Proof.
  intros Hl H. assert (L0 : 0 < INR (List.length l)) by (apply lt_0_INR; destruct l; [contradiction|cbn; lia]).
  assert (A : avg_abs l <= b). { unfold avg_abs. apply Rmult_le_reg_l with (INR (List.length l)); [exact L0|]. replace (INR (List.length l) * (Rsum (map Rabs l) / INR (List.length l))) with (Rsum (map Rabs l)) by (field; lra). apply Rsum_bound, H. }
  split; [exact A|]. eapply Rle_trans; [|exact A]. unfold avg, avg_abs, Rdiv. rewrite Rabs_mult, (Rabs_pos_eq (/ _)) by (left; apply Rinv_0_lt_compat; exact L0).
  apply Rmult_le_compat_r; [left; apply Rinv_0_lt_compat; exact L0|apply Rsum_abs_le].
Qed.
Lemma deviation_bound (l : rvec) (t : nat) : l <> [] -> (forall a, In a l -> Rabs a <= 2 ^ t) -> deviation l <= 2 * 2 ^ t.
Proof.
  intros Hl H. assert (P : 0 < 2 ^ t) by (apply pow_lt; lra). destruct (avg_abs_bound l _ Hl H) as (_ & A). unfold deviation. rewrite <- (sqrt_Rsqr (2 * 2 ^ t)) by lra. apply sqrt_le_1_alt.
  destruct (avg_abs_bound (map (fun a => (a - avg l) ^ 2) l) (Rsqr (2 * 2 ^ t))) as (_ & B).
  - destruct l; [contradiction|discriminate].
  - intros a Ha. apply in_map_iff in Ha as (b & <- & Hb). rewrite <- RPow_abs. replace (Rsqr (2 * 2 ^ t)) with ((2 * 2 ^ t) ^ 2) by (unfold Rsqr; ring). apply pow_incr. split; [apply Rabs_pos|].
    unfold Rminus. eapply Rle_trans; [apply Rabs_triang|]. rewrite Rabs_Ropp. specialize (H b Hb). lra.
  - eapply Rle_trans; [apply Rle_abs|exact B].
Qed.

Section C131.
  Variable solve : list (list float) -> list (list float) -> option (list (list float)).
  Variables (tanh exp : float -> float) (power : float -> float -> float) (sum : list float -> float) (dot : list float -> list float -> float).
  Hypothesis sum_ok : forall l, sums l (sum l).
  #[local] Hint Extern 0 (Num float) => exact (FNumD solve tanh exp power sum dot) : typeclass_instances.
  Notation fvec := (list float).

  Lemma diff1_row (M : list fvec) k : (S k < List.length M)%nat -> nth k (diff1 M) [] = map2 PrimFloat.sub (nth (S k) M []) (nth k M []).
  Proof.
    unfold diff1. destruct M as [|a M]; [intros H; cbn in H; lia|]. cbn [tl]. intros H. assert (K : (k < List.length M)%nat) by (cbn [List.length] in H; lia).
    rewrite (map2_nth' _ _ _ _ ([] : fvec) ([] : fvec)); [reflexivity|first [exact K|cbn [List.length]; lia]|first [exact K|cbn [List.length]; lia]].
  Qed.
  Lemma diff1_count (M : list fvec) : List.length (diff1 M) = (List.length M - 1)%nat.
  Proof. unfold diff1. rewrite map2_len. destruct M; cbn; lia. Qed.

  Section W.
  Variables (N c o : nat) (w : list fvec).
  Hypothesis Lw : List.length w = N.
  Hypothesis Rw : Forall (fun r => List.length r = c) w.

  Lemma rows_len (M : list fvec) j : Forall (fun r => List.length r = c) M -> (j < List.length M)%nat -> List.length (nth j M []) = c.
  Proof. intros H Hj. rewrite Forall_forall in H. apply H, nth_In, Hj. Qed.
  Lemma diffn_spec q : List.length (diffn q w) = (N - q)%nat /\ Forall (fun r => List.length r = c) (diffn q w) /\
    forall j i, (j < N - q)%nat -> (i < c)%nat -> entF (diffn q w) j i = dF q w j i.
  Proof.
    induction q as [|q (I1 & I2 & I3)]; cbn [diffn]; [split; [lia|]; split; [exact Rw|reflexivity]|].
    assert (L : List.length (diff1 (diffn q w)) = (N - S q)%nat) by (rewrite diff1_count; lia).
    assert (ROW : forall j, (j < N - S q)%nat -> nth j (diff1 (diffn q w)) [] = map2 PrimFloat.sub (nth (S j) (diffn q w) []) (nth j (diffn q w) [])).
    { intros j Hj. apply diff1_row. lia. }
    split; [exact L|]. split.
    - apply Forall_forall. intros r Hr. apply (In_nth _ _ []) in Hr as (j & Hj & <-). rewrite ROW by lia. rewrite map2_len, !rows_len by (auto; lia). lia.
    - intros j i Hj Hi. unfold entF. rewrite ROW by exact Hj. rewrite (map2_nth' _ _ _ _ zero zero) by (rewrite rows_len by (auto; lia); exact Hi).
      fold (entF (diffn q w) (S j) i) (entF (diffn q w) j i). rewrite !I3 by lia. reflexivity.
  Qed.
  Definition incs : list fvec := le_dw o w.
  Lemma incs_spec : List.length incs = N /\ forall j, (j < N)%nat -> List.length (nth j incs []) = c /\ forall i, (i < c)%nat -> nth i (nth j incs []) zero = incF o w j i.
  Proof.
    destruct (diffn_spec o) as (D1 & D2 & D3). unfold incs, le_dw, mabs. split; [rewrite app_length, firstn_length, map_length; lia|].
    intros j Hj. unfold incF. destruct (Nat.ltb_spec j o) as [L|L].
    - assert (E : nth j (firstn o w ++ map (map nabs) (diffn o w)) [] = nth j w []).
      { rewrite app_nth1 by (rewrite firstn_length; lia). rewrite <- (firstn_skipn o w) at 2. rewrite app_nth1 by (rewrite firstn_length; lia). reflexivity. }
      rewrite E. split; [apply rows_len; [exact Rw|lia]|reflexivity].
    - rewrite app_nth2 by (rewrite firstn_length; lia). rewrite firstn_length. replace (j - Nat.min o (List.length w))%nat with (j - o)%nat by lia.
      rewrite (map_nth_lt _ _ _ ([] : fvec)) by lia. split; [rewrite map_length; apply rows_len; [exact D2|lia]|]. intros i Hi. rewrite (map_nth_lt _ _ _ zero) by (rewrite rows_len by (auto; lia); exact Hi).
      fold (entF (diffn o w) (j - o) i). rewrite D3 by lia. reflexivity.
  Qed.
  Lemma column_window m k i : (m <= k)%nat -> (k < N)%nat -> (i < c)%nat -> column i (le_window m incs k) = windowF o m w k i.
  Proof.
    intros Hm Hk Hi. destruct incs_spec as (I1 & I2). unfold column, le_window, slice, windowF. replace (k - (k - m))%nat with m by lia.
    apply (nth_ext _ _ zero zero); [rewrite !map_length, firstn_length, skipn_length, seq_length; lia|].
    rewrite map_length, firstn_length, skipn_length. intros t Ht. rewrite (map_nth_lt _ _ _ ([] : fvec)) by (rewrite firstn_length, skipn_length; lia). rewrite (map_nth_lt _ _ _ 0%nat) by (rewrite seq_length; lia). rewrite seq_nth by lia.
    assert (E : nth t (firstn m (skipn (k - m) incs)) [] = nth (k - m + t) incs []).
    { rewrite <- (firstn_skipn (k - m) incs) at 2. rewrite app_nth2 by (rewrite firstn_length; lia). rewrite firstn_length. replace (k - m + t - Nat.min (k - m) (List.length incs))%nat with t by lia.
      rewrite <- (firstn_skipn m (skipn (k - m) incs)) at 2. rewrite app_nth1 by (rewrite firstn_length, skipn_length; lia). reflexivity. }
    rewrite E. cbn [Nat.add]. apply (proj2 (I2 (k - m + t)%nat ltac:(lia))). exact Hi.
  Qed.
  Lemma transpose_fun (f : fvec -> float) m k i : (m <= k)%nat -> (k < N)%nat -> (i < c)%nat -> nth i (map f (transpose c (le_window m incs k))) zero = f (windowF o m w k i).
  Proof.
    intros Hm Hk Hi. unfold transpose. rewrite map_map, (map_nth_lt _ _ _ 0%nat) by (rewrite seq_length; exact Hi). rewrite seq_nth by exact Hi. cbn [Nat.add]. rewrite column_window by auto. reflexivity.
  Qed.
  Lemma transpose_len (f : fvec -> float) A : List.length (map f (transpose c A)) = c.
  Proof. unfold transpose. rewrite !map_length, seq_length. reflexivity. Qed.

  Section Direct.
  Hypothesis Sw : Forall (Forall (fun a => fin a /\ Rabs (val a) <= 2 ^ 300)) w.
  Hypothesis So : (o <= 50)%nat.
  Lemma dF_size q : (q <= 50)%nat -> forall j i, (j + q < N)%nat -> (i < c)%nat -> fin (dF q w j i) /\ Rabs (val (dF q w j i)) <= 2 ^ (300 + 2 * q).
  Proof.
    induction q as [|q IH]; intros Hq j i Hj Hi; cbn [dF].
    - unfold entF. rewrite Forall_forall in Sw. assert (HIn : In (nth j w []) w) by (apply nth_In; lia). pose proof (Sw _ HIn) as S1. rewrite Forall_forall in S1. apply S1, nth_In. rewrite rows_len by (auto; lia). exact Hi.
    - destruct (IH ltac:(lia) (S j) i ltac:(lia) Hi) as (F1 & B1). destruct (IH ltac:(lia) j i ltac:(lia) Hi) as (F2 & B2).
      destruct (sub_size _ _ (300 + 2 * q) F1 F2 ltac:(lia) B1 B2) as (F & B & _). split; [exact F|]. replace (300 + 2 * S q)%nat with (300 + 2 * q + 2)%nat by lia. exact B.
  Qed.
  Lemma inc_size j i : (j < N)%nat -> (i < c)%nat -> fin (incF o w j i) /\ Rabs (val (incF o w j i)) <= 2 ^ 400.
  Proof.
    intros Hj Hi. unfold incF. destruct (Nat.ltb_spec j o) as [L|L].
    - destruct (dF_size 0 ltac:(lia) j i ltac:(lia) Hi) as (F & B). split; [exact F|]. eapply Rle_trans; [exact B|]. apply Rle_pow; [lra|lia].
    - destruct (dF_size o So (j - o)%nat i ltac:(lia) Hi) as (F & B). split; [apply abs_ok; exact F|]. rewrite abs_val, Rabs_Rabsolu. eapply Rle_trans; [exact B|]. apply Rle_pow; [lra|lia].
  Qed.

  (** *** C131.  The direct form, entry by entry *)
  Theorem C131_direct m : (0 < m)%nat -> (Z.of_nat m <= 2 ^ 40)%Z -> exists A, learning_entropy c w m (Z.of_nat o) AlphaFalse = Ok (LeMatrix A) /\ List.length A = N /\
    forall k i, (k < N)%nat -> (i < c)%nat -> List.length (nth k A []) = c /\ let r := entF A k i in
      if (k <? m)%nat then r = zero else
      fin r /\ Rabs (val r) <= 2 ^ 440 /\
      let x := val (incF o w k i) in let X := map val (windowF o m w k i) in let dm := 2 * (INR m + 1) * uro * avg_abs X + 6 * / 2 ^ 1075 in
      exists a s d1 d2 d3 h, Rabs (a - avg X) <= dm /\ 0 <= s /\ Rabs (s - deviation X) <= 2 * (INR m + 5) * uro * deviation X + 2 * dm + / 2 ^ 535 /\
        Rabs d1 <= uro /\ Rabs d2 <= uro /\ Rabs d3 <= uro /\ Rabs h <= / 2 ^ 1075 /\
        val r = (x - a) * (1 + d1) / ((s + val epsF) * (1 + d2)) * (1 + d3) + h.
  Proof.
    intros Hm0 Hm40. unfold learning_entropy. replace (Z.of_nat o <? 0)%Z with false by (symmetry; apply Z.ltb_ge; lia). rewrite Nat2Z.id. cbn [not_alpha]. fold incs.
    eexists. split; [reflexivity|]. destruct incs_spec as (I1 & I2). unfold le_direct. split; [rewrite map_length, seq_length; exact I1|].
    intros k i Hk Hi. unfold entF. rewrite (map_nth_lt _ _ _ 0%nat) by (rewrite seq_length; lia). rewrite seq_nth by lia. cbn [Nat.add]. unfold le_awd, le_swd. destruct (Nat.ltb_spec k m) as [L|L].
    { split; [unfold zeros; apply repeat_length|]. cbv zeta. apply nth_repeat. }
    destruct (I2 k Hk) as (LK & NK). unfold mean0, std0.
    split; [rewrite !map2_len, !transpose_len, LK; lia|]. cbv zeta.
    rewrite (map2_nth' _ _ _ _ zero zero) by (rewrite ?map2_len, ?transpose_len, ?LK; lia). rewrite (map2_nth' _ _ _ _ zero zero) by (rewrite ?transpose_len, ?LK; lia).
    rewrite NK, !transpose_fun by auto. set (x := incF o w k i). set (W := windowF o m w k i).
    change (let r := PrimFloat.div (PrimFloat.sub x (mean W)) (PrimFloat.add (std W) epsF) in fin r /\ Rabs (val r) <= 2 ^ 440 /\
      exists a s d1 d2 d3 h, Rabs (a - avg (map val W)) <= 2 * (INR m + 1) * uro * avg_abs (map val W) + 6 * / 2 ^ 1075 /\ 0 <= s /\ Rabs (s - deviation (map val W)) <= 2 * (INR m + 5) * uro * deviation (map val W) + 2 * (2 * (INR m + 1) * uro * avg_abs (map val W) + 6 * / 2 ^ 1075) + / 2 ^ 535 /\
        Rabs d1 <= uro /\ Rabs d2 <= uro /\ Rabs d3 <= uro /\ Rabs h <= / 2 ^ 1075 /\ val r = (val x - a) * (1 + d1) / ((s + val epsF) * (1 + d2)) * (1 + d3) + h).
    cbv zeta. destruct (inc_size k i Hk Hi) as (Fx & Bx). fold x in Fx, Bx.
    assert (LW : List.length W = m) by (unfold W, windowF; rewrite map_length, seq_length; reflexivity).
    assert (SW : sane W). { apply Forall_forall. intros b Hb. apply in_map_iff in Hb as (t & <- & Ht). apply in_seq in Ht. apply inc_size; lia. }
    assert (NW : W <> []) by (intros E; rewrite E in LW; cbn in LW; lia). assert (HW : (Z.of_nat (List.length W) <= 2 ^ 40)%Z) by (rewrite LW; exact Hm40).
    destruct (C94_mean solve tanh exp power sum dot sum_ok W NW HW SW) as (Fm & Bm & BA). pose proof (mean_size solve tanh exp power sum dot sum_ok W NW HW SW) as Sm.
    destruct (C94_std solve tanh exp power sum dot sum_ok W NW HW SW) as (Fs & Ps & Bs). rewrite LW in Bm, Bs. set (X := map val W) in *.
    assert (BX : forall a, In a X -> Rabs a <= 2 ^ 400). { intros a Ha. apply in_map_iff in Ha as (b & <- & Hb). unfold sane in SW. rewrite Forall_forall in SW. apply SW, Hb. }
    assert (NX : X <> []) by (unfold X; destruct W; [contradiction|discriminate]). pose proof (deviation_bound X 400 NX BX) as DB. assert (D0 : 0 <= deviation X) by (unfold deviation; apply sqrt_pos).
    pose proof uro_pos as Hu. pose proof eta_pos as He. pose proof eta1 as E1. pose proof (NU13 m Hm40) as NU. destruct U13 as (U & P13). fold eta.
    assert (A0 : 0 <= avg_abs X). { unfold avg_abs. apply Rmult_le_pos; [apply Rsum_abs_nonneg|left; apply Rinv_0_lt_compat, lt_0_INR]. destruct X; [contradiction|cbn; lia]. }
    assert (N1 : 0 <= INR m) by apply pos_INR.
    destruct eps_facts as (Fe & Pe & Qe). assert (P34 : 0 < / 2 ^ 34) by (apply Rinv_0_lt_compat, pow_lt; lra). assert (P33 : / 2 ^ 33 <= 1) by (rewrite <- Rinv_1; apply Rinv_le_contravar; [lra|apply pow_R1_Rle; lra]).
    assert (P535 : / 2 ^ 535 <= 1) by (rewrite <- Rinv_1; apply Rinv_le_contravar; [lra|apply pow_R1_Rle; lra]).
    assert (P400 : 2 ^ 4 <= 2 ^ 400) by (apply Rle_pow; [lra|leb]). simpl (2 ^ 4) in P400.
    assert (E403 : 2 ^ 403 = 8 * 2 ^ 400) by (change 403%nat with (3 + 400)%nat; rewrite pow_add; simpl; ring).
    assert (DM : 2 * (INR m + 1) * uro * avg_abs X <= 1 * 2 ^ 400) by (apply Rmult_le_compat; [|exact A0|nra|exact BA]; apply Rmult_le_pos; lra).
    assert (DD : 2 * (INR m + 5) * uro * deviation X <= 1 * deviation X) by (apply Rmult_le_compat_r; [exact D0|]; lra).
    assert (SB : val (std W) <= 2 ^ 403) by (apply Rabs_le_inv in Bs; lra).
    destruct (sub_size x (mean W) 402 Fx Fm ltac:(lia)) as (F1 & B1 & d1 & Hd1 & V1); [eapply Rle_trans; [exact Bx|apply Rle_pow; [lra|lia]]|exact Sm|].
    assert (F2 : fin (PrimFloat.add (std W) epsF)). { apply add_ok; auto. rewrite !Rabs_pos_eq by lra. unfold cap. apply Rle_trans with (2 ^ 404); [replace (2 ^ 404) with (2 * 2 ^ 403) by (change 404%nat with (1 + 403)%nat; rewrite pow_add; simpl; ring); lra|apply Rle_pow; [lra|leb]]. }
    destruct (add_err _ _ F2) as (d2 & Hd2 & V2).
    assert (L2 : / 2 ^ 35 <= val (PrimFloat.add (std W) epsF)).
    { rewrite V2. replace (/ 2 ^ 35) with (/ 2 ^ 34 * / 2) by (change 35%nat with (1 + 34)%nat; rewrite pow_add, Rinv_mult; simpl; lra). apply Rmult_le_compat; [lra|lra|lra|]. assert (- uro <= d2) by (apply Rabs_le_inv in Hd2; lra). assert (/ 2 ^ 13 <= / 2) by lra. lra. }
    assert (P35 : 0 < / 2 ^ 35) by (apply Rinv_0_lt_compat, pow_lt; lra).
    assert (QB : Rabs (val (PrimFloat.sub x (mean W)) / val (PrimFloat.add (std W) epsF)) <= 2 ^ 439).
    { unfold Rdiv. rewrite Rabs_mult, Rabs_inv, (Rabs_pos_eq (val (PrimFloat.add _ _))) by lra. replace (2 ^ 439) with (2 ^ (402 + 2) * 2 ^ 35) by (rewrite <- pow_add; reflexivity).
      apply Rmult_le_compat; [apply Rabs_pos|left; apply Rinv_0_lt_compat; lra|exact B1|]. rewrite <- (Rinv_inv (2 ^ 35)). apply Rinv_le_contravar; [exact P35|exact L2]. }
    assert (F3 : fin (PrimFloat.div (PrimFloat.sub x (mean W)) (PrimFloat.add (std W) epsF))) by (apply div_ok; auto; [lra|eapply Rle_trans; [exact QB|unfold cap; apply Rle_pow; [lra|leb]]]).
    destruct (div_err _ _ F3 F2) as (d3 & h & Hd3 & Hh & V3); [lra|].
    split; [exact F3|]. split.
    - rewrite V3. eapply Rle_trans; [apply Rabs_triang|]. rewrite Rabs_mult. assert (B : Rabs (1 + d3) <= 1 + / 2) by (eapply Rle_trans; [apply Rabs_triang|rewrite Rabs_R1; lra]).
      assert (C : Rabs (val (PrimFloat.sub x (mean W)) / val (PrimFloat.add (std W) epsF)) * Rabs (1 + d3) <= 2 ^ 439 * (1 + / 2)) by (apply Rmult_le_compat; auto using Rabs_pos).
      assert (D : 2 <= 2 ^ 439) by (apply Rle_trans with (2 ^ 1); [lra|apply Rle_pow; [lra|leb]]). replace (2 ^ 440) with (2 * 2 ^ 439) by (change 440%nat with (1 + 439)%nat; rewrite pow_add; simpl; ring). lra.
    - exists (val (mean W)), (val (std W)), d1, d2, d3, h. repeat (split; [assumption|]). rewrite V3, V1, V2. reflexivity.
  Qed.
  End Direct.

  (** The multiscale form counts, exactly, and rounds once; nothing is assumed of the weights: they may be nan or infinite. *)
  Definition hitsF (m k : nat) (alpha : float) : nat :=
    List.length (filter (fun i => PrimFloat.ltb (PrimFloat.mul (PrimFloat.div (sum (windowF o m w k i)) (f_of_Z (Z.of_nat m))) alpha) (incF o w k i)) (seq 0 c)).
  Definition hits_all (m k : nat) (alphas : fvec) : nat := list_sum (map (hitsF m k) alphas).
  Lemma hits_count (g : float -> float -> bool) : forall u v : fvec, List.length u = List.length v ->
    count_true (map2 g u v) = List.length (filter (fun i => g (nth i u zero) (nth i v zero)) (seq 0 (List.length u))).
  Proof.
    assert (SH : forall (f : nat -> bool) l, List.length (filter f (map S l)) = List.length (filter (fun i => f (S i)) l)).
    { intros f l. induction l as [|a l IH]; [reflexivity|]. cbn [map filter]. destruct (f (S a)); cbn [List.length]; rewrite IH; reflexivity. }
    induction u as [|a u IH]; intros [|b v] H; try discriminate; [reflexivity|]. cbn [List.length] in *. injection H as H. cbn [map2 count_true seq filter nth]. rewrite <- seq_shift.
    rewrite (IH v H). destruct (g a b); cbn [List.length]; rewrite SH; reflexivity.
  Qed.
  Lemma hits_le m k alpha : (hitsF m k alpha <= c)%nat.
  Proof.
    unfold hitsF. rewrite <- (seq_length c 0) at 2. generalize (seq 0 c). intros l. induction l as [|a l IH]; [cbn; lia|]. cbn [filter]. destruct (PrimFloat.ltb _ _); cbn [List.length]; lia.
  Qed.
  Lemma hits_all_le m k l : (hits_all m k l <= c * List.length l)%nat.
  Proof.
    induction l as [|a l IH]; [cbn; lia|]. change (hitsF m k a + hits_all m k l <= c * S (List.length l))%nat. pose proof (hits_le m k a). nia.
  Qed.
  Lemma hits_row m k alpha : (m <= k)%nat -> (k < N)%nat -> count_true (map2 (fun a d => nltb (nmul a alpha) d) (mean0 c (le_window m incs k)) (nth k incs [])) = hitsF m k alpha.
  Proof.
    intros Hm Hk. destruct incs_spec as (I1 & I2). destruct (I2 k Hk) as (LK & NK). unfold mean0. rewrite hits_count by (rewrite transpose_len, LK; reflexivity). rewrite transpose_len. unfold hitsF. f_equal.
    apply filter_ext_in. intros i Hi. apply in_seq in Hi. rewrite NK by lia. rewrite transpose_fun by (auto; lia).
    change (PrimFloat.ltb (PrimFloat.mul (PrimFloat.div (sum (windowF o m w k i)) (f_of_Z (Z.of_nat (List.length (windowF o m w k i))))) alpha) (incF o w k i) = PrimFloat.ltb (PrimFloat.mul (PrimFloat.div (sum (windowF o m w k i)) (f_of_Z (Z.of_nat m))) alpha) (incF o w k i)).
    replace (List.length (windowF o m w k i)) with m by (unfold windowF; rewrite map_length, seq_length; reflexivity). reflexivity.
  Qed.
  Lemma rnd_int k : (Z.of_nat k < 2 ^ 53)%Z -> rnd (INR k) = INR k.
  Proof. intros H. destruct (count_val k H) as (_ & <-). apply rnd_val. Qed.
  Lemma cap_int k : (Z.of_nat k < 2 ^ 53)%Z -> INR k <= cap / 2.
  Proof.
    intros H. apply Rle_trans with (2 ^ 53).
    - rewrite INR_IZR_INZ. replace (2 ^ 53) with (IZR (2 ^ 53)) by (symmetry; exact (pow_IZR 2 53)). apply IZR_le. lia.
    - unfold cap. replace (2 ^ 1000) with (2 ^ 999 * 2) by (change 1000%nat with (1 + 999)%nat; rewrite pow_add; lra).
      replace (2 ^ 999 * 2 / 2) with (2 ^ 999) by lra. apply Rle_pow; [lra|leb].
  Qed.
  Theorem C131_multiscale m alphas : (0 < c)%nat -> alphas <> [] -> (Z.of_nat (c * List.length alphas) < 2 ^ 53)%Z ->
    exists v, learning_entropy c w m (Z.of_nat o) (AlphaList alphas) = Ok (LeSeries v) /\ List.length v = N /\
    forall k, (k < N)%nat -> let r := nth k v zero in
      if (k <? m)%nat then r = zero else
      fin r /\ 0 <= val r <= 1 /\ val r = rnd (INR (hits_all m k alphas) / INR (c * List.length alphas)).
  Proof.
    intros Hc Ha Hs. unfold learning_entropy. replace (Z.of_nat o <? 0)%Z with false by (symmetry; apply Z.ltb_ge; lia). rewrite Nat2Z.id. unfold not_alpha. fold incs.
    destruct (Nat.eqb_spec (List.length alphas) 0) as [E|E]; [destruct alphas; [contradiction|discriminate]|].
    eexists. split; [reflexivity|]. destruct incs_spec as (I1 & I2). unfold le_multiscale. split; [rewrite map_length, seq_length; exact I1|].
    intros k Hk. cbv zeta. rewrite (map_nth_lt _ _ _ 0%nat) by (rewrite seq_length; lia). rewrite seq_nth by lia. cbn [Nat.add]. unfold le_awd. destruct (Nat.ltb_spec k m) as [L|L]; [reflexivity|].
    set (M := (c * List.length alphas)%nat) in *. assert (PM : 0 < INR M) by (apply lt_0_INR; unfold M; destruct c, (List.length alphas); lia).
    assert (HF : forall l s K, fin s -> val s = INR K -> (Z.of_nat (K + c * List.length l) < 2 ^ 53)%Z ->
      let t := fold_left (fun s alpha => nadd s (nofnat (count_true (map2 (fun a d => nltb (nmul a alpha) d) (mean0 c (le_window m incs k)) (nth k incs []))))) l s in
      fin t /\ val t = INR (K + hits_all m k l)).
    { induction l as [|a l IH]; intros s K Fs Vs HK; cbv zeta; cbn [fold_left List.length] in *; [unfold hits_all; cbn; rewrite Nat.add_0_r; auto|].
      rewrite (hits_row m k a L Hk). pose proof (hits_le m k a) as HC.
      assert (HK1 : (Z.of_nat (hitsF m k a) < 2 ^ 53)%Z) by nia. destruct (count_val _ HK1) as (F1 & V1).
      assert (HK2 : (Z.of_nat (K + hitsF m k a) < 2 ^ 53)%Z) by nia. assert (HK0 : (Z.of_nat K < 2 ^ 53)%Z) by nia.
      assert (FA : fin (PrimFloat.add s (f_of_Z (Z.of_nat (hitsF m k a))))).
      { apply add_ok; auto. rewrite Vs, V1, !Rabs_pos_eq by apply pos_INR. pose proof (cap_int _ HK1). pose proof (cap_int _ HK0). lra. }
      change (hits_all m k (a :: l)) with (hitsF m k a + hits_all m k l)%nat. rewrite Nat.add_assoc.
      apply (IH (PrimFloat.add s (f_of_Z (Z.of_nat (hitsF m k a)))) (K + hitsF m k a)%nat FA).
      - rewrite (add_round _ _ FA), Vs, V1, <- plus_INR. apply rnd_int. exact HK2.
      - nia. }
    destruct (HF alphas zero 0%nat I (proj2 zero_fin)) as (FK & VK); [exact Hs|]. cbn [Nat.add] in VK.
    assert (HK : (hits_all m k alphas <= M)%nat).
    { apply hits_all_le. }
    match goal with |- fin (ndiv ?t _) /\ _ => change t with (fold_left (fun s alpha => nadd s (nofnat (count_true (map2 (fun a d => nltb (nmul a alpha) d) (mean0 c (le_window m incs k)) (nth k incs []))))) alphas zero) end.
    set (S0 := fold_left _ alphas zero) in *. clearbody S0. destruct (count_val M Hs) as (FM & VM).
    change (ndiv S0 (nofnat M)) with (PrimFloat.div S0 (f_of_Z (Z.of_nat M))). set (K := hits_all m k alphas) in *.
    assert (Q : 0 <= INR K / INR M <= 1).
    { split; [apply Rmult_le_pos; [apply pos_INR|apply Rlt_le, Rinv_0_lt_compat; exact PM]|]. apply (Rmult_le_reg_r (INR M)); [exact PM|]. unfold Rdiv. rewrite Rmult_assoc, Rinv_l by lra. rewrite Rmult_1_r, Rmult_1_l. apply le_INR. exact HK. }
    assert (C1 : 1 <= cap) by (unfold cap; apply pow_R1_Rle; lra).
    assert (FD : fin (PrimFloat.div S0 (f_of_Z (Z.of_nat M)))).
    { apply div_ok; auto; rewrite VM; [lra|]. rewrite VK, Rabs_pos_eq by lra. lra. }
    destruct (div_round S0 (f_of_Z (Z.of_nat M)) FD FM) as (_ & VD); [rewrite VM; lra|]. rewrite VK, VM in VD.
    split; [exact FD|]. rewrite VD. split; [|reflexivity]. split; [apply rnd_nonneg; lra|]. apply Rle_trans with (rnd 1); [apply rnd_le; lra|]. change 1 with (INR 1). rewrite rnd_int by reflexivity. lra.
  Qed.
  (** A weight that has not changed during the window and the differences it takes has novelty 0, exactly: order >= 1 (for order 0 see C131_constant_weights). *)
  Definition z0 (a : float) : Prop := fin a /\ val a = 0.
  Lemma rnd0 : rnd 0 = 0. Proof. exact (rnd_int 0 eq_refl). Qed.
  Lemma cap0 : 0 <= cap. Proof. unfold cap. apply pow_le. lra. Qed.
  Lemma z0_add a b : z0 a -> z0 b -> z0 (PrimFloat.add a b).
  Proof.
    intros (Fa & Va) (Fb & Vb). assert (F : fin (PrimFloat.add a b)) by (apply add_ok; auto; rewrite Va, Vb, Rabs_R0; pose proof cap0; lra).
    split; [exact F|]. rewrite (add_round _ _ F), Va, Vb, Rplus_0_r. apply rnd0.
  Qed.
  Lemma same_sub a b : fin a -> fin b -> val a = val b -> Rabs (val a) <= 2 ^ 300 -> z0 (PrimFloat.sub a b).
  Proof.
    intros Fa Fb E B. destruct (sub_size a b 300 Fa Fb ltac:(lia) B ltac:(rewrite <- E; exact B)) as (F & _ & d & _ & V). split; [exact F|]. rewrite V, E. ring.
  Qed.
  Lemma z0_sub a b : z0 a -> z0 b -> z0 (PrimFloat.sub a b).
  Proof. intros (Fa & Va) (Fb & Vb). apply same_sub; auto; [lra|]. rewrite Va, Rabs_R0. apply pow_le. lra. Qed.
  Lemma z0_div a b : z0 a -> fin b -> val b <> 0 -> z0 (PrimFloat.div a b).
  Proof.
    intros (Fa & Va) Fb Hb. assert (Z : val a / val b = 0) by (rewrite Va; unfold Rdiv; ring). assert (F : fin (PrimFloat.div a b)) by (apply div_ok; auto; rewrite Z, Rabs_R0; apply cap0).
    split; [exact F|]. destruct (div_round a b F Fb Hb) as (_ & ->). rewrite Z. apply rnd0.
  Qed.
  Lemma z0_mul a b : z0 a -> fin b -> z0 (PrimFloat.mul a b).
  Proof.
    intros (Fa & Va) Fb. assert (Z : val a * val b = 0) by (rewrite Va; ring). assert (F : fin (PrimFloat.mul a b)) by (apply mul_ok; auto; rewrite Z, Rabs_R0; apply cap0).
    split; [exact F|]. destruct (mul_round a b F) as (_ & _ & ->). rewrite Z. apply rnd0.
  Qed.
  Lemma z0_abs a : z0 a -> z0 (PrimFloat.abs a).
  Proof. intros (Fa & Va). split; [apply abs_ok; exact Fa|]. rewrite abs_val, Va. apply Rabs_R0. Qed.
  Lemma z0_sums l r : sums l r -> Forall z0 l -> z0 r.
  Proof.
    induction 1 as [|a|l1 l2 r1 r2 H1 IH1 H2 IH2|l l' r P H IH]; intros HF.
    - exact zero_fin.
    - exact (Forall_inv HF).
    - apply Forall_app in HF as (A & B). apply z0_add; auto.
    - apply IH. rewrite Forall_forall in *. intros x Hx. apply HF. eapply Permutation_in; eauto.
  Qed.
  Lemma z0_mean (l : fvec) : l <> [] -> (Z.of_nat (List.length l) < 2 ^ 53)%Z -> Forall z0 l -> z0 (mean l).
  Proof.
    intros Hl Hs H. destruct (count_val (List.length l) Hs) as (FN & VN). change (z0 (PrimFloat.div (sum l) (f_of_Z (Z.of_nat (List.length l))))).
    apply z0_div; [exact (z0_sums _ _ (sum_ok l) H)|exact FN|]. rewrite VN. apply not_0_INR. destruct l; [contradiction|discriminate].
  Qed.
  Lemma z0_std (l : fvec) : l <> [] -> (Z.of_nat (List.length l) < 2 ^ 53)%Z -> Forall z0 l -> z0 (std l).
  Proof.
    intros Hl Hs H. pose proof (z0_mean l Hl Hs H) as ZM. unfold std. cbv zeta.
    assert (Z : z0 (mean (map (fun a => npown (nabs (nsub a (mean l))) 2) l))).
    { apply z0_mean; [destruct l; [contradiction|discriminate]|rewrite map_length; exact Hs|]. apply Forall_forall. intros b Hb. apply in_map_iff in Hb as (a & <- & Ha). rewrite Forall_forall in H.
      pose proof (z0_abs _ (z0_sub _ _ (H a Ha) ZM)) as Z. change (z0 (fpown (PrimFloat.abs (PrimFloat.sub a (mean l))) 2)). set (t := PrimFloat.abs _) in *. clearbody t. exact (z0_mul t t Z (proj1 Z)). }
    destruct Z as (F & V). destruct (sqrt_ok _ F ltac:(lra)) as (F2 & V2). split; [exact F2|]. change (val (PrimFloat.sqrt (mean (map (fun a => npown (nabs (nsub a (mean l))) 2) l))) = 0). rewrite V2, V, sqrt_0. apply rnd0.
  Qed.
  Theorem C131_unchanged m k i : (1 <= o)%nat -> (0 < m)%nat -> (Z.of_nat m < 2 ^ 53)%Z -> (m + o <= k)%nat -> (k < N)%nat -> (i < c)%nat ->
    fin (entF w k i) -> Rabs (val (entF w k i)) <= 2 ^ 300 -> (forall j, (k - m - o <= j <= k)%nat -> entF w j i = entF w k i) ->
    exists A, learning_entropy c w m (Z.of_nat o) AlphaFalse = Ok (LeMatrix A) /\ fin (entF A k i) /\ val (entF A k i) = 0.
  Proof.
    intros Ho Hm Hm53 Hmk Hk Hi Fw Bw HW.
    assert (DZ : forall q j, (k - m - o <= j)%nat -> (j + S q <= k)%nat -> z0 (dF (S q) w j i)).
    { induction q as [|q IH]; intros j H1 H2; cbn [dF]; [|apply z0_sub; apply IH; lia]. rewrite (HW (S j)) by lia. rewrite (HW j) by lia. apply same_sub; auto. }
    assert (IZ : forall j, (k - m <= j <= k)%nat -> z0 (incF o w j i)).
    { intros j Hj. unfold incF. replace (j <? o)%nat with false by (symmetry; apply Nat.ltb_ge; lia). apply z0_abs. destruct o as [|o']; [lia|]. apply DZ; lia. }
    unfold learning_entropy. replace (Z.of_nat o <? 0)%Z with false by (symmetry; apply Z.ltb_ge; lia). rewrite Nat2Z.id. cbn [not_alpha]. fold incs.
    eexists. split; [reflexivity|]. destruct incs_spec as (I1 & I2). unfold le_direct.
    unfold entF. rewrite (map_nth_lt _ _ _ 0%nat) by (rewrite seq_length; lia). rewrite seq_nth by lia. cbn [Nat.add]. unfold le_awd, le_swd. destruct (Nat.ltb_spec k m) as [L|L]; [lia|].
    destruct (I2 k Hk) as (LK & NK). unfold mean0, std0.
    rewrite (map2_nth' _ _ _ _ zero zero) by (rewrite ?map2_len, ?transpose_len, ?LK; lia). rewrite (map2_nth' _ _ _ _ zero zero) by (rewrite ?transpose_len, ?LK; lia).
    rewrite NK, !transpose_fun by auto. set (W := windowF o m w k i).
    assert (LW : List.length W = m) by (unfold W, windowF; rewrite map_length, seq_length; reflexivity).
    assert (ZW : Forall z0 W). { apply Forall_forall. intros b Hb. apply in_map_iff in Hb as (t & <- & Ht). apply in_seq in Ht. apply IZ. lia. }
    assert (NW : W <> []) by (intros E; rewrite E in LW; cbn in LW; lia). rewrite <- LW in Hm53.
    pose proof (z0_mean W NW Hm53 ZW) as ZM. destruct (z0_std W NW Hm53 ZW) as (FS & VS). destruct eps_facts as (Fe & Pe & Qe). assert (P34 : 0 < / 2 ^ 34) by (apply Rinv_0_lt_compat, pow_lt; lra).
    assert (P33 : / 2 ^ 33 <= 1) by (rewrite <- Rinv_1; apply Rinv_le_contravar; [lra|apply pow_R1_Rle; lra]). assert (C1 : 1 <= cap) by (unfold cap; apply pow_R1_Rle; lra).
    change (z0 (PrimFloat.div (PrimFloat.sub (incF o w k i) (mean W)) (PrimFloat.add (std W) epsF))).
    assert (F2 : fin (PrimFloat.add (std W) epsF)) by (apply add_ok; auto; rewrite VS, Rabs_R0, Rabs_pos_eq by lra; lra).
    apply z0_div; [apply z0_sub; [apply IZ; lia|exact ZM]|exact F2|]. rewrite (add_round _ _ F2), VS, Rplus_0_l, rnd_val. lra.
  Qed.
  End W.
End C131.

(** *** Examples: five samples of one weight; order 0 looks at the weight itself. *)
(** the weight never changes, exact arithmetic says novelty 0 (C40): the double computed for the last sample is below -0.9, because
    (x + x + x)/3 is not x in doubles and 1e-10 is nothing next to the spacing of doubles of this size *)
Definition le_const : float := FloatOps.Z.ldexp tenth 40.
Example C131_hypotheses : let w := repeat [le_const] 5 in
  (forall l, sums l (plain_sum l)) /\ Forall (fun r => List.length r = 1%nat) w /\ Forall (Forall (fun a => fin a /\ Rabs (val a) <= 2 ^ 300)) w /\ (0 <= 50)%nat /\ (Z.of_nat 3 <= 2 ^ 40)%Z /\
  (exists A, @learning_entropy _ round_num 1 w 3 0 AlphaFalse = Ok (LeMatrix A) /\ val (entF A 4 0) <= - Q2R (9 # 10)) /\
  (exists v, @learning_entropy _ round_num 1 (w ++ [[PrimFloat.two]; [le_const]]) 3 1 (AlphaList [PrimFloat.one; PrimFloat.two]) = Ok (LeSeries v) /\ val (nth 5 v zero) = 1).
Proof.
  cbv zeta. split; [intros l; exact (fold_sums l _ _ [] sum_zero eq_refl)|]. split; [repeat constructor|].
  assert (P300 : 2 ^ 60 <= 2 ^ 300) by (apply Rle_pow; [lra|leb]).
  assert (E60 : Q2R (1152921504606846976 # 1) = 2 ^ 60) by (unfold Q2R; cbn [Qnum Qden]; rewrite Rinv_1, Rmult_1_r; symmetry; exact (pow_IZR 2 60)).
  assert (F : fin le_const /\ Rabs (val le_const) <= 2 ^ 300).
  { split; [apply finb_ok; vm_compute; reflexivity|]. rewrite val_Q. eapply Rle_trans; [|exact P300]. rewrite <- E60. rewrite Rabs_pos_eq; [apply Qle_Rle, Qle_bool_iff; vm_compute; reflexivity|].
    replace 0 with (Q2R 0) by (unfold Q2R; cbn; lra). apply Qle_Rle, Qle_bool_iff. vm_compute. reflexivity. }
  split; [repeat (constructor; [constructor; [exact F|constructor]|]); constructor|]. split; [lia|]. split; [vm_compute; discriminate|].
  split.
  - eexists. split; [vm_compute; reflexivity|]. rewrite val_Q. rewrite <- Q2R_opp. apply Qle_Rle, Qle_bool_iff. vm_compute. reflexivity.
  - eexists. split; [vm_compute; reflexivity|]. rewrite val_Q. replace 1 with (Q2R 1) by (unfold Q2R; cbn; lra). apply Qeq_eqR. vm_compute. reflexivity.
Qed.
(** part (iii) of C131 on its own: with the (admissible) summation from the left, weights that never change get a novelty below -0.9 *)
Theorem C131_constant_weights : exists (x : float) A, fin x /\ @learning_entropy _ round_num 1 (repeat [x] 5) 3 0 AlphaFalse = Ok (LeMatrix A) /\ val (entF A 4 0) <= - (9 / 10) /\
  (forall l, sums l (plain_sum l)).
Proof.
  exists le_const. eexists. split; [apply finb_ok; vm_compute; reflexivity|]. split; [vm_compute; reflexivity|]. split; [|intros l; exact (fold_sums l _ _ [] sum_zero eq_refl)].
  replace (- (9 / 10)) with (- Q2R (9 # 10)) by (unfold Q2R; cbn; lra). rewrite val_Q, <- Q2R_opp. apply Qle_Rle, Qle_bool_iff. vm_compute. reflexivity.
Qed.
Example C131_unchanged_hypotheses : let w := [PrimFloat.one] :: repeat [le_const] 6 in (1 <= 1)%nat /\ (0 < 3)%nat /\ (Z.of_nat 3 < 2 ^ 53)%Z /\ (3 + 1 <= 5)%nat /\ (5 < List.length w)%nat /\ (0 < 1)%nat /\
  fin (entF w 5 0) /\ (forall j, (5 - 3 - 1 <= j <= 5)%nat -> entF w j 0 = entF w 5 0) /\ entF w 0 0 <> entF w 5 0 /\
  exists A, @learning_entropy _ round_num 1 w 3 1 AlphaFalse = Ok (LeMatrix A) /\ val (entF A 5 0) = 0 /\ PrimFloat.ltb (entF A 4 0) zero = true.
Proof.
  cbv zeta. do 6 (split; [first [lia|reflexivity|cbn; lia]|]). split; [apply finb_ok; vm_compute; reflexivity|].
  split; [intros j Hj; do 6 (destruct j as [|j]; [first [lia|reflexivity]|]); lia|]. split; [intros H; apply (f_equal (PrimFloat.eqb PrimFloat.one)) in H; revert H; vm_compute; discriminate|].
  eexists. split; [vm_compute; reflexivity|]. split; [|vm_compute; reflexivity]. rewrite val_Q. replace 0 with (Q2R 0) by (unfold Q2R; cbn; lra). apply Qeq_eqR. vm_compute. reflexivity.
Qed.
