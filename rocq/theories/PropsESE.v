(** Properties C42, C43: peak over threshold and extreme seeking entropy. *)
From Coq Require Import Reals Lra Psatz QArith Permutation Qreals.
From Verif Require Import Py Num NumQ NumF Numpy StructProofs RVec RMat Detection PropsDetection.
Open Scope R_scope.

(** ** Specification *)
Definition ascending (l : rvec) : Prop := forall a b, (a <= b < length l)%nat -> nth a l 0 <= nth b l 0.
Definition descends (l : rvec) : Prop := forall a b, (a <= b < length l)%nat -> nth b l 0 <= nth a l 0.
Definition sorts (sort : rvec -> rvec) : Prop := forall v, Permutation (sort v) v /\ ascending (sort v).

(** r holds the k largest of the data (all of them if there are fewer), in descending order *)
Definition k_largest (k : nat) (data r : rvec) : Prop :=
  length r = Nat.min k (length data) /\ descends r /\
  exists rest, Permutation (r ++ rest) data /\ forall a b, In a r -> In b rest -> b <= a.

Section ESE.
  Variable solve : list rvec -> list rvec -> option (list rvec).
  #[local] Hint Extern 0 (Num R) => exact (RNum solve) : typeclass_instances.
  Variable sort : rvec -> rvec.
  Hypothesis sort_ok : sorts sort.

  Lemma reverse_sorted data : let s := map Ropp (sort (map Ropp data)) in
    Permutation s data /\ descends s /\ length s = length data.
  Proof.
    intros s. destruct (sort_ok (map Ropp data)) as (H1 & H2).
    assert (Hp : Permutation s data).
    { unfold s. eapply Permutation_trans; [apply Permutation_map; exact H1|].
      rewrite map_map. rewrite (map_ext _ (fun a => a)) by (intros; lra). rewrite map_id. apply Permutation_refl. }
    split; auto. split; [|apply Permutation_length; auto].
    intros a b Hab. unfold s in *. rewrite map_length in Hab.
    rewrite !(map_nth_lt _ _ _ 0) by lia. specialize (H2 a b Hab). lra.
  Qed.

  Lemma firstn_nth0 (s : rvec) : forall q i, (i < q)%nat -> nth i (firstn q s) 0 = nth i s 0.
  Proof. induction s as [|a s IH]; intros [|q] [|i] H; simpl; auto; try lia. apply IH; lia. Qed.
  Lemma skipn_nth0 q j : forall s : rvec, nth j (skipn q s) 0 = nth (q + j) s 0.
  Proof. induction q as [|q IH]; intros s; simpl; auto. destruct s; simpl; auto. destruct j; auto. Qed.

  Lemma pot_k_largest data k : k_largest k data (slice_to (map Ropp (sort (map Ropp data))) (Z.of_nat k)).
  Proof.
    destruct (reverse_sorted data) as (H1 & H2 & H3). cbv zeta in *.
    set (s := map Ropp (sort (map Ropp data))) in *. unfold slice_to, slice_idx.
    destruct (Z.ltb_spec (Z.of_nat k) 0); [lia|]. rewrite Nat2Z.id.
    set (q := Nat.min (length s) k).
    assert (Hn : forall i, (i < q)%nat -> nth i (firstn q s) 0 = nth i s 0).
    { intros; apply firstn_nth0; auto. }
    assert (Hlq : length (firstn q s) = q) by (rewrite firstn_length; unfold q; lia).
    split; [unfold q in *; lia|]. split.
    - intros a b Hab. rewrite Hlq in Hab. rewrite !Hn by lia. apply H2. unfold q in Hab; lia.
    - exists (skipn q s). split; [rewrite firstn_skipn; auto|]. intros a b Ha Hb.
      apply (In_nth _ _ 0) in Ha as (i & Hi & <-). apply (In_nth _ _ 0) in Hb as (j & Hj & <-).
      rewrite Hlq in Hi. rewrite Hn by auto. rewrite skipn_length in Hj.
      rewrite skipn_nth0. apply H2. lia.
  Qed.

  (** int() of a non-negative number *)
  Lemma trunc_floor x z : 0 <= x -> IZR z <= x -> x < IZR z + 1 -> Rtrunc x = z.
  Proof.
    intros Hx H1 H2. unfold Rtrunc. destruct (Rle_dec 0 x); [|contradiction]. 
    destruct (base_Int_part x) as (B1 & B2). apply Zle_antisym.
    - assert (IZR (Int_part x) < IZR (z + 1)) by (rewrite plus_IZR; simpl; lra). apply lt_IZR in H. lia.
    - assert (IZR z < IZR (Int_part x + 1)) by (rewrite plus_IZR; simpl; lra). apply lt_IZR in H. lia.
  Qed.
  Lemma trunc_div a b n : (0 < b)%nat -> Rtrunc (INR a / INR b * INR n) = Z.of_nat ((a * n) / b).
  Proof.
    intros Hb. assert (Hb' : 0 < INR b) by (apply lt_0_INR; auto).
    pose proof (Nat.div_mod (a * n) b ltac:(lia)) as Hd. pose proof (Nat.mod_upper_bound (a * n) b ltac:(lia)) as Hm.
    set (q := ((a * n) / b)%nat) in *. set (r := ((a * n) mod b)%nat) in *.
    assert (E : INR a / INR b * INR n = (INR b * INR q + INR r) / INR b).
    { rewrite <- mult_INR, <- plus_INR, <- Hd, mult_INR. field. lra. }
    assert (Hr : 0 <= INR r < INR b) by (split; [apply pos_INR|apply lt_INR; auto]).
    assert (E2 : (INR b * INR q + INR r) / INR b = INR q + INR r / INR b) by (field; lra).
    assert (Hfr : 0 <= INR r / INR b < 1).
    { split; [apply Rmult_le_pos; [lra|left; apply Rinv_0_lt_compat; auto]|].
      apply (Rmult_lt_reg_r (INR b)); auto. unfold Rdiv. rewrite Rmult_assoc, Rinv_l by lra. lra. }
    rewrite E, E2. pose proof (pos_INR q). rewrite <- INR_IZR_INZ || idtac.
    apply trunc_floor; rewrite <- ?INR_IZR_INZ; lra.
  Qed.
  Lemma trunc_sqrt n : Rtrunc (R_sqrt.sqrt (INR n)) = Z.of_nat (Nat.sqrt n).
  Proof.
    pose proof (Nat.sqrt_spec n ltac:(lia)) as (H1 & H2). set (q := Nat.sqrt n) in *.
    assert (P : 0 <= INR q) by apply pos_INR.
    apply trunc_floor; rewrite <- ?INR_IZR_INZ.
    - apply sqrt_pos.
    - rewrite <- (sqrt_square (INR q)) by auto. apply sqrt_le_1_alt. rewrite <- mult_INR. apply le_INR; auto.
    - rewrite <- S_INR. rewrite <- (sqrt_square (INR (S q))) by apply pos_INR. apply sqrt_lt_1_alt.
      split; [apply pos_INR|]. rewrite <- mult_INR. apply lt_INR; auto.
  Qed.
  Lemma ln10_pos : 0 < ln 10.
  Proof. rewrite <- ln_1. apply ln_increasing; lra. Qed.
  Lemma trunc_log10 n p : (10 ^ p <= n < 10 ^ (S p))%nat -> Rtrunc (ln (INR n) / ln 10) = Z.of_nat p.
  Proof.
    intros (H1 & H2). pose proof ln10_pos as Hl.
    assert (Hpow : forall q, INR (10 ^ q) = 10 ^ q) by (intros q; rewrite pow_INR; f_equal; simpl; ring).
    assert (Hln : forall q, ln (10 ^ q) = INR q * ln 10).
    { intros q. rewrite <- Rpower_pow by lra. unfold Rpower. rewrite ln_exp. reflexivity. }
    assert (Hn : 0 < INR n).
    { apply lt_0_INR. pose proof (Nat.pow_nonzero 10 p ltac:(lia)). lia. }
    assert (L1 : INR p * ln 10 <= ln (INR n)).
    { rewrite <- Hln. apply le_INR in H1. rewrite Hpow in H1. destruct H1 as [H1|H1]; [left; apply ln_increasing; auto; apply pow_lt; lra|rewrite H1; lra]. }
    assert (L2 : ln (INR n) < (INR p + 1) * ln 10).
    { rewrite <- S_INR, <- Hln. apply lt_INR in H2. rewrite Hpow in H2. apply ln_increasing; auto. }
    assert (B : INR p <= ln (INR n) / ln 10 < INR p + 1).
    { split.
      - apply (Rmult_le_reg_r (ln 10)); auto. unfold Rdiv. rewrite Rmult_assoc, Rinv_l by lra. lra.
      - apply (Rmult_lt_reg_r (ln 10)); auto. unfold Rdiv. rewrite Rmult_assoc, Rinv_l by lra. lra. }
    pose proof (pos_INR p). apply trunc_floor; rewrite <- ?INR_IZR_INZ; lra.
  Qed.

  Lemma zmax_nat p : Z.max (Z.of_nat p) 1 = Z.of_nat (Nat.max p 1).
  Proof. lia. Qed.

  (** the number of values kept by each method, exact arithmetic *)
  Definition pot_spec (method : string) (n k : nat) : Prop :=
    (method = "10%"%string /\ k = Nat.max (n / 10) 1) \/
    (method = "35%"%string /\ k = Nat.max (35 * n / 100) 1) \/
    (method = "sqrt"%string /\ k = Nat.max (Nat.sqrt n) 1) \/
    (method = "log10"%string /\ exists p, (10 ^ p <= n < 10 ^ S p)%nat /\ k = Nat.max p 1).

  Theorem C42_k_largest : forall data method k, pot_spec method (length data) k ->
    exists r, pot sort data method = Ok r /\ k_largest k data r.
  Proof.
    intros data method k Hs.
    assert (Hc : pot_count (NT := RNum solve) (length data) method = Ok (Z.of_nat k)).
    { unfold pot_count, nofnat. set (n := length data) in *.
      destruct Hs as [(-> & ->)|[(-> & ->)|[(-> & ->)|(-> & p & Hp & ->)]]]; cbn [String.eqb Ascii.eqb Bool.eqb].
      - rewrite <- zmax_nat. f_equal. f_equal. change (Rtrunc (Q2R (1 # 10) * IZR (Z.of_nat n)) = Z.of_nat (n / 10)). rewrite <- INR_IZR_INZ.
        replace (Q2R (1 # 10)) with (INR 1 / INR 10) by (unfold Q2R; simpl; field).
        rewrite trunc_div by lia. rewrite Nat.mul_1_l. reflexivity.
      - rewrite <- zmax_nat. f_equal. f_equal. change (Rtrunc (Q2R (35 # 100) * IZR (Z.of_nat n)) = Z.of_nat (35 * n / 100)). rewrite <- INR_IZR_INZ.
        replace (Q2R (35 # 100)) with (INR 35 / INR 100) by (unfold Q2R; simpl; field).
        rewrite trunc_div by lia. reflexivity.
      - rewrite <- zmax_nat. f_equal. f_equal. change (Rtrunc (R_sqrt.sqrt (IZR (Z.of_nat n))) = Z.of_nat (Nat.sqrt n)). rewrite <- INR_IZR_INZ. apply trunc_sqrt.
      - destruct (Nat.eqb_spec n 0) as [E|_].
        { pose proof (Nat.pow_nonzero 10 p ltac:(lia)). lia. }
        rewrite <- zmax_nat. f_equal. f_equal. change (Rtrunc (ln (IZR (Z.of_nat n)) / ln 10) = Z.of_nat p). rewrite <- INR_IZR_INZ. apply trunc_log10; auto. }
    unfold pot. rewrite Hc. cbn [rmap]. eexists; split; [reflexivity|]. apply pot_k_largest.
  Qed.

  (** the method log10log10: a value for every n >= 2 except 10, where the division by log10(log10(10)) = 0
      gives inf and int() raises; the formula is negative below 10, so one value is kept there *)
  Lemma log10_10 : ln 10 / ln 10 = 1.
  Proof. pose proof ln10_pos. field; lra. Qed.
  Theorem C42_log10log10_overflow : forall data, length data = 10%nat -> pot sort data "log10log10" = Err OverflowError.
  Proof.
    intros data H. unfold pot, pot_count, nofnat. rewrite H. cbn [String.eqb Ascii.eqb Bool.eqb Nat.eqb].
    change (nlog10 (nlog10 (nofZ (Z.of_nat 10)))) with (ln (ln 10 / ln 10) / ln 10). rewrite log10_10, ln_1.
    replace (0 / ln 10) with 0 by (unfold Rdiv; ring).
    match goal with |- context [neqb ?a ?b] => change (neqb a b) with (Reqb 0 0) end.
    unfold Reqb. destruct (Req_EM_T 0 0); [reflexivity|congruence].
  Qed.
  Lemma log10log10_nonzero n : (2 <= n)%nat -> n <> 10%nat -> ln (ln (INR n) / ln 10) / ln 10 <> 0 /\
     ((n < 10)%nat -> ln (ln (INR n) / ln 10) / ln 10 < 0) /\ ((10 < n)%nat -> 0 < ln (ln (INR n) / ln 10) / ln 10).
  Proof.
    intros H2 H10. pose proof ln10_pos as Hl. assert (Hn2 : 2 <= INR n) by (apply le_INR in H2; simpl in H2; lra).
    assert (Hlt : (n < 10)%nat -> ln (ln (INR n) / ln 10) / ln 10 < 0).
    { intros Hn. assert (Hi : INR n < 10) by (apply lt_INR in Hn; simpl in Hn; lra).
      assert (P : 0 < ln (INR n)) by (rewrite <- ln_1; apply ln_increasing; lra).
      assert (Q : ln (INR n) < ln 10) by (apply ln_increasing; lra).
      assert (X : 0 < ln (INR n) / ln 10 < 1).
      { split; [apply Rdiv_lt_0_compat; auto|]. apply (Rmult_lt_reg_r (ln 10)); auto. unfold Rdiv. rewrite Rmult_assoc, Rinv_l by lra. lra. }
      assert (Y : ln (ln (INR n) / ln 10) < 0) by (rewrite <- ln_1; apply ln_increasing; lra).
      pose proof (Rinv_0_lt_compat _ Hl). unfold Rdiv. nra. }
    assert (Hgt : (10 < n)%nat -> 0 < ln (ln (INR n) / ln 10) / ln 10).
    { intros Hn. assert (Hi : 10 < INR n) by (apply lt_INR in Hn; simpl in Hn; lra).
      assert (Q : ln 10 < ln (INR n)) by (apply ln_increasing; lra).
      assert (X : 1 < ln (INR n) / ln 10).
      { apply (Rmult_lt_reg_r (ln 10)); auto. unfold Rdiv. rewrite Rmult_assoc, Rinv_l by lra. lra. }
      apply Rdiv_lt_0_compat; auto. rewrite <- ln_1; apply ln_increasing; lra. }
    split; auto. destruct (Nat.lt_ge_cases n 10); [pose proof (Hlt ltac:(auto))|pose proof (Hgt ltac:(lia))]; lra.
  Qed.
  Lemma Rtrunc_neg x : x < 0 -> (Rtrunc x <= 0)%Z.
  Proof.
    intros Hx. unfold Rtrunc. destruct (Rle_dec 0 x); [lra|].
    destruct (base_Int_part (- x)) as (H1 & H2).
    assert (IZR (-1) < IZR (Int_part (- x))) by (simpl; lra). apply lt_IZR in H. lia.
  Qed.
  Lemma Rtrunc_nonneg x : 0 <= x -> (0 <= Rtrunc x)%Z.
  Proof.
    intros Hx. unfold Rtrunc. destruct (Rle_dec 0 x); [|lra].
    destruct (base_Int_part x) as (H1 & H2).
    assert (IZR (-1) < IZR (Int_part x)) by (simpl; lra). apply lt_IZR in H. lia.
  Qed.
  Theorem C42_log10log10 : forall data, (2 <= length data)%nat -> length data <> 10%nat ->
    exists r k, pot sort data "log10log10" = Ok r /\ k_largest k data r /\ (1 <= k)%nat /\
      ((length data < 10)%nat -> k = 1%nat) /\
      ((10 < length data)%nat -> k = Nat.max (Z.to_nat (Rtrunc (Rpower (INR (length data)) (2 / 3)
                                                   / (ln (ln (INR (length data)) / ln 10) / ln 10)))) 1).
  Proof.
    intros data H2 H10. destruct (log10log10_nonzero _ H2 H10) as (Hz & Hlt & Hgt).
    set (n := length data) in *.
    assert (Hn2 : 2 <= INR n) by (apply le_INR in H2; simpl in H2; lra).
    set (v := Rpower (INR n) (2 / 3) / (ln (ln (INR n) / ln 10) / ln 10)).
    assert (Hc : pot_count (NT := RNum solve) n "log10log10" = Ok (Z.max (Rtrunc v) 1)).
    { unfold pot_count, nofnat. cbn [String.eqb Ascii.eqb Bool.eqb].
      destruct (Nat.eqb_spec n 0); [lia|]. destruct (Nat.eqb_spec n 1); [lia|].
      change (nlog10 (nlog10 (nofZ (Z.of_nat n)))) with (ln (ln (IZR (Z.of_nat n)) / ln 10) / ln 10). rewrite <- INR_IZR_INZ.
      match goal with |- context [neqb ?a ?b] => change (neqb a b) with (Reqb a 0) end.
      unfold Reqb. destruct (Req_EM_T _ 0); [contradiction|]. f_equal. f_equal.
      change (Rtrunc (Rpowf (IZR (Z.of_nat n)) (2 / 3) / (ln (ln (INR n) / ln 10) / ln 10)) = Rtrunc v). unfold v. f_equal. f_equal.
      rewrite <- INR_IZR_INZ. unfold Rpowf. destruct (Req_EM_T (INR n) 0); [lra|reflexivity]. }
    exists (slice_to (map Ropp (sort (map Ropp data))) (Z.max (Rtrunc v) 1)), (Z.to_nat (Z.max (Rtrunc v) 1)).
    split; [unfold pot; fold n; rewrite Hc; reflexivity|].
    split; [rewrite <- (Z2Nat.id (Z.max (Rtrunc v) 1)) at 2 by lia; apply pot_k_largest|].
    split; [lia|]. assert (Hp : 0 < Rpower (INR n) (2 / 3)) by apply exp_pos. split.
    - intros Hn. assert (Hv : v < 0).
      { unfold v. specialize (Hlt Hn). unfold Rdiv at 1. apply Rinv_lt_0_compat in Hlt. nra. }
      apply Rtrunc_neg in Hv. lia.
    - intros Hn. assert (Hv : 0 < v) by (unfold v; apply Rdiv_lt_0_compat; auto). fold v.
      pose proof (Rtrunc_nonneg v ltac:(lra)). lia.
  Qed.

  Definition known (method : string) : Prop :=
    In method ["10%"; "sqrt"; "log10log10"; "log10"; "35%"]%string.

  Theorem C42_unknown_method : forall data method, ~ known method -> pot sort data method = Ok [].
  Proof.
    intros data method H. unfold pot, pot_count.
unfold known in H.
    destruct (String.eqb_spec method "10%") as [E|_]; [exfalso; apply H; rewrite E; simpl; tauto|].
    destruct (String.eqb_spec method "sqrt") as [E|_]; [exfalso; apply H; rewrite E; simpl; tauto|].
    destruct (String.eqb_spec method "log10log10") as [E|_]; [exfalso; apply H; rewrite E; simpl; tauto|].
    destruct (String.eqb_spec method "log10") as [E|_]; [exfalso; apply H; rewrite E; simpl; tauto|].
    destruct (String.eqb_spec method "35%") as [E|_]; [exfalso; apply H; rewrite E; simpl; tauto|].
    cbn [rmap]. unfold slice_to, slice_idx. simpl (Z.to_nat 0). simpl (_ <? _)%Z. cbv iota. rewrite Nat.min_0_r. reflexivity.
  Qed.
  (** the method '30%' of the documentation does not exist *)
  Corollary C42_documented_30_percent : forall data, pot sort data "30%" = Ok [].
  Proof. intros; apply C42_unknown_method. unfold known; simpl. intuition discriminate. Qed.

  (** ** ESE *)
  Variable fit : rvec -> R -> result (R * R * R).
  Variable cdf : R -> R -> R -> R -> R.
  Notation ESE := (ESE sort fit cdf).

  Lemma ese_dw_ok N c (w : rmat) : shape N c w -> shape N c (ese_dw w) /\
    forall k i, (k < N)%nat -> (i < c)%nat ->
      ent (ese_dw w) k i = if (k =? 0)%nat then ent w 0 i else Rabs (ent w k i - ent w (k - 1) i).
  Proof.
    intros Hw. destruct (diff1_ok solve N c w Hw) as (D1 & D2). destruct (mabs_ok solve _ c _ D1) as (M1 & M2).
    pose proof Hw as (Hl & HF).
    assert (HFn : shape (Nat.min 1 N) c (firstn 1 w)).
    { split; [rewrite firstn_length; lia|]. rewrite <- (firstn_skipn 1 w) in HF. apply Forall_app in HF. apply HF. }
    destruct (app_ok _ _ c _ _ HFn M1) as (A1 & A2). unfold ese_dw. split.
    - replace N with (Nat.min 1 N + (N - 1))%nat by lia. exact A1.
    - intros k i Hk Hi. rewrite A2.
      destruct (Nat.ltb_spec k (Nat.min 1 N)); destruct (Nat.eqb_spec k 0); try lia.
      + subst k. apply firstn_ent; lia.
      + rewrite M2, D2 by lia. replace (S (k - Nat.min 1 N)) with k by lia. replace (k - Nat.min 1 N)%nat with (k - 1)%nat by lia. reflexivity.
  Qed.

  Theorem C43_window_too_large : forall N c w window method, shape N c w -> (N < window)%nat ->
    ESE c w window method = Err ValueError.
  Proof.
    intros N c w window method Hw H. destruct (ese_dw_ok N c w Hw) as ((Hl & _) & _).
    unfold Detection.ESE. rewrite Hl. destruct (Nat.ltb_spec N window); [reflexivity|lia].
  Qed.

  Lemma sequence_inv {A} (l : list (result A)) r : sequence l = Ok r ->
    length r = length l /\ forall i dl dr, (i < length l)%nat -> nth i l dl = Ok (nth i r dr).
  Proof.
    revert r; induction l as [|x l IH]; intros r H; cbn [sequence] in H.
    - injection H as <-. split; auto. intros i dl dr Hi; simpl in Hi; lia.
    - destruct x as [a|]; [|discriminate]. cbn [rbind] in H. destruct (sequence l) as [r'|]; [|discriminate].
      injection H as <-. destruct (IH r' eq_refl) as (H1 & H2). split; [simpl; lia|].
      intros [|i] dl dr Hi; simpl; auto. apply H2. simpl in Hi; lia.
  Qed.

  (** what a successful call computed *)
  Lemma ESE_inv N c w window method r : shape N c w -> ESE c w window method = Ok r ->
    (window <= N)%nat /\ length r = N /\ (forall i, (i < window)%nat -> nth i r 0 = 0) /\
    forall i, (window <= i < N)%nat -> exists h, length h = c /\
      nth i r 0 = - (ln (fold_left Rmult h 1) / ln 10) /\
      forall j, (j < c)%nat -> ese_cell sort fit cdf (column j (ese_dw w)) window i method = Ok (nth j h 0).
  Proof.
    intros Hw E. destruct (ese_dw_ok N c w Hw) as ((Hl & _) & _).
    unfold Detection.ESE in E. rewrite Hl in E. destruct (Nat.ltb_spec N window); [discriminate|].
    match type of E with rmap _ (sequence ?l) = _ => set (rows := l) in * end.
    destruct (sequence rows) as [hpp|] eqn:Es; [|discriminate]. cbn [rmap] in E. injection E as <-.
    destruct (sequence_inv rows hpp Es) as (H1 & H2).
    assert (Hrl : length rows = (N - window)%nat) by (unfold rows; rewrite map_length, seq_length; auto).
    split; auto. split; [|split].
    - unfold zeros. rewrite app_length, repeat_length, map_length. lia.
    - intros i Hi. rewrite app_nth1 by (unfold zeros; rewrite repeat_length; auto). unfold zeros.
      clear - Hi. revert i Hi; induction window as [|k IH]; intros [|i] Hi; simpl; auto; try lia. apply IH; lia.
    - intros i Hi. exists (nth (i - window) hpp []).
      specialize (H2 (i - window)%nat (Ok []) [] ltac:(lia)).
      unfold rows in H2. rewrite (map_nth_lt _ _ _ 0%nat) in H2 by (rewrite seq_length; lia). rewrite seq_nth in H2 by lia.
      replace (window + (i - window))%nat with i in H2 by lia.
      destruct (sequence_inv _ _ H2) as (H3 & H4). rewrite map_length, seq_length in H3.
      split; auto. split.
      + rewrite app_nth2 by (unfold zeros; rewrite repeat_length; lia). unfold zeros; rewrite repeat_length.
        rewrite (map_nth_lt _ _ _ ([] : rvec)) by lia. reflexivity.
      + intros j Hj. specialize (H4 j (Ok 0) 0). rewrite map_length, seq_length in H4. specialize (H4 Hj).
        rewrite (map_nth_lt _ _ _ 0%nat) in H4 by (rewrite seq_length; auto). rewrite seq_nth in H4 by auto. exact H4.
  Qed.

  (** the result has one value per sample; the first `window` values are zero *)
  Theorem C43_length : forall N c w window method r, shape N c w -> ESE c w window method = Ok r ->
    length r = N /\ forall i, (i < window)%nat -> nth i r 0 = 0.
  Proof. intros N c w window method r Hw E. destruct (ESE_inv N c w window method r Hw E) as (_ & H1 & H2 & _). auto. Qed.

  (** the series of increments of weight j as a list of N numbers *)
  Definition increments (N : nat) (w : rmat) (j : nat) : rvec :=
    map (fun k => if (k =? 0)%nat then ent w 0 j else Rabs (ent w k j - ent w (k - 1) j)) (seq 0 N).
  Lemma increments_eq N c w j : shape N c w -> (j < c)%nat -> column j (ese_dw w) = increments N w j.
  Proof.
    intros Hw Hj. destruct (ese_dw_ok N c w Hw) as ((Hl & _) & He).
    apply nth_ext0; [rewrite (column_len solve); unfold increments; rewrite map_length, seq_length; auto|].
    intros k Hk. rewrite (column_len solve), Hl in Hk. rewrite (column_nth solve) by lia.
    unfold increments. rewrite (map_nth_lt _ _ _ 0%nat) by (rewrite seq_length; auto). rewrite seq_nth by auto. apply He; auto.
  Qed.

  (** zero wherever no increment exceeds the smallest of the peaks of its window *)
  Lemma fold_ones h : (forall j, (j < length h)%nat -> nth j h 0 = 1) -> forall s, fold_left Rmult h s = s.
  Proof.
    induction h as [|a h IH]; intros H s; cbn [fold_left]; auto.
    pose proof (H 0%nat ltac:(simpl; lia)) as Ha; simpl in Ha; subst a. rewrite IH; [ring|].
    intros j Hj. apply (H (S j)). simpl; lia.
  Qed.
  Theorem C43_zero_below_threshold : forall N c w window method r i, shape N c w -> ESE c w window method = Ok r ->
    (window <= i < N)%nat ->
    (forall j, (j < c)%nat -> forall p t, pot sort (slice (increments N w j) (i - window) i) method = Ok (p ++ [t]) ->
       nth i (increments N w j) 0 <= t) ->
    nth i r 0 = 0.
  Proof.
    intros N c w window method r i Hw E Hi Hle.
    destruct (ESE_inv N c w window method r Hw E) as (_ & _ & _ & H). destruct (H i Hi) as (h & Hl & -> & Hc).
    rewrite (fold_ones h).
    { rewrite ln_1. unfold Rdiv. ring. }
    intros j Hj. rewrite Hl in Hj. specialize (Hc j Hj). specialize (Hle j Hj).
    rewrite (increments_eq N c) in Hc by auto. unfold ese_cell in Hc.
    destruct (pot sort _ method) as [po|] eqn:Ep; [|discriminate]. cbn [rbind] in Hc.
    destruct (rev po) as [|t p] eqn:Er; [discriminate|].
    specialize (Hle (rev p) t).
    assert (Epo : po = rev p ++ [t]) by (rewrite <- (rev_involutive po), Er; reflexivity).
    rewrite Epo in Hle. specialize (Hle eq_refl).
    change (nltb t (nth i (increments N w j) n0)) with (Rltb t (nth i (increments N w j) 0)) in Hc.
    unfold Rltb in Hc. destruct (Rlt_dec t _); [lra|]. injection Hc as Hc. rewrite <- Hc. reflexivity.
  Qed.

  (** bounds for any fitted distribution *)
  Lemma tiny_val : Q2R (1 # 100000000000000000000) = / 10 ^ 20.
  Proof. unfold Q2R; simpl. field. Qed.
  Lemma tiny_pos : 0 < / 10 ^ 20.
  Proof. apply Rinv_0_lt_compat, pow_lt; lra. Qed.
  Lemma cell_bounds col window i method v : (forall a b c d, 0 <= cdf a b c d <= 1) ->
    ese_cell sort fit cdf col window i method = Ok v -> / 10 ^ 20 <= v <= 1 + / 10 ^ 20.
  Proof.
    intros Hcdf E. pose proof tiny_pos as Ht. assert (H1 : / 10 ^ 20 <= 1).
    { rewrite <- Rinv_1. apply Rinv_le_contravar; [lra|]. pose proof (pow_R1_Rle 10 20 ltac:(lra)); lra. }
    unfold ese_cell in E. destruct (pot sort _ method) as [po|]; [|discriminate]. cbn [rbind] in E.
    destruct (rev po) as [|t p]; [discriminate|].
    destruct (nltb t _).
    - destruct (fit po t) as [[[c loc] scale]|]; [|discriminate]. cbn [rbind] in E. destruct (nleb loc _).
      + injection E as <-. simpl. rewrite tiny_val. specialize (Hcdf (nth i col 0) c loc scale).
        change (@n0 R (RNum solve)) with 0. lra.
      + injection E as <-. change (@n1 R _) with 1. lra.
    - injection E as <-. change (@n1 R _) with 1. lra.
  Qed.
  Lemma prod_bounds lo hi h : 0 < lo <= hi -> (forall j, (j < length h)%nat -> lo <= nth j h 0 <= hi) ->
    forall s, 0 < s -> s * lo ^ length h <= fold_left Rmult h s <= s * hi ^ length h.
  Proof.
    intros Hlh. induction h as [|a h IH]; intros H s Hs; cbn [fold_left length pow]; [lra|].
    pose proof (H 0%nat ltac:(simpl; lia)) as Ha; simpl in Ha.
    assert (Hh : forall j, (j < length h)%nat -> lo <= nth j h 0 <= hi) by (intros j Hj; apply (H (S j)); simpl; lia).
    assert (Hsa : 0 < s * a) by (apply Rmult_lt_0_compat; lra).
    destruct (IH Hh (s * a) Hsa) as (I1 & I2).
    assert (P1 : 0 < lo ^ length h) by (apply pow_lt; lra). assert (P2 : 0 < hi ^ length h) by (apply pow_lt; lra).
    split.
    - apply Rle_trans with (s * a * lo ^ length h); auto.
      replace (s * (lo * lo ^ length h)) with (s * lo * lo ^ length h) by ring.
      apply Rmult_le_compat_r; [lra|]. apply Rmult_le_compat_l; lra.
    - apply Rle_trans with (s * a * hi ^ length h); auto.
      replace (s * (hi * hi ^ length h)) with (s * hi * hi ^ length h) by ring.
      apply Rmult_le_compat_r; [lra|]. apply Rmult_le_compat_l; lra.
  Qed.
  Lemma ln_pow x k : 0 < x -> ln (x ^ k) = INR k * ln x.
  Proof. intros Hx. rewrite <- Rpower_pow by auto. unfold Rpower. rewrite ln_exp. reflexivity. Qed.

  Theorem C43_bounds : forall N c w window method r, shape N c w -> (forall a b c d, 0 <= cdf a b c d <= 1) ->
    ESE c w window method = Ok r ->
    forall i, (i < N)%nat -> - (INR c * (ln (1 + / 10 ^ 20) / ln 10)) <= nth i r 0 <= 20 * INR c.
  Proof.
    intros N c w window method r Hw Hcdf E i Hi. pose proof ln10_pos as Hl. pose proof tiny_pos as Ht.
    assert (Hln : 0 < ln (1 + / 10 ^ 20)) by (rewrite <- ln_1 at 1; apply ln_increasing; lra).
    pose proof (pos_INR c) as Hc0.
    assert (Hq : 0 <= INR c * (ln (1 + / 10 ^ 20) / ln 10)).
    { apply Rmult_le_pos; auto. left; apply Rdiv_lt_0_compat; auto. }
    destruct (ESE_inv N c w window method r Hw E) as (_ & _ & H0 & H).
    destruct (Nat.lt_ge_cases i window) as [Hlt|Hge]; [rewrite H0 by auto; lra|].
    destruct (H i ltac:(lia)) as (h & Hh & -> & Hcell).
    assert (Hb : forall j, (j < length h)%nat -> / 10 ^ 20 <= nth j h 0 <= 1 + / 10 ^ 20).
    { intros j Hj. eapply cell_bounds; eauto. apply Hcell; lia. }
    destruct (prod_bounds (/ 10 ^ 20) (1 + / 10 ^ 20) h ltac:(lra) Hb 1 ltac:(lra)) as (P1 & P2).
    rewrite !Rmult_1_l, Hh in P1, P2. set (p := fold_left Rmult h 1) in *.
    assert (Pp : 0 < (/ 10 ^ 20) ^ c) by (apply pow_lt; auto).
    assert (L1 : INR c * ln (/ 10 ^ 20) <= ln p).
    { rewrite <- ln_pow by auto. destruct P1 as [P1|P1]; [left; apply ln_increasing; auto|rewrite P1; lra]. }
    assert (L2 : ln p <= INR c * ln (1 + / 10 ^ 20)).
    { rewrite <- ln_pow by lra. destruct P2 as [P2|P2]; [left; apply ln_increasing; auto; lra|rewrite P2; lra]. }
    rewrite ln_Rinv, ln_pow in L1 by (try apply pow_lt; lra).
    assert (E20 : INR 20 = 20) by (simpl; ring). rewrite E20 in L1. clear E20.
    assert (D1 : ln p / ln 10 <= INR c * (ln (1 + / 10 ^ 20) / ln 10)).
    { unfold Rdiv. rewrite <- Rmult_assoc. apply Rmult_le_compat_r; auto. left; apply Rinv_0_lt_compat; auto. }
    assert (D2 : - (20 * INR c) <= ln p / ln 10).
    { apply (Rmult_le_reg_r (ln 10)); auto. unfold Rdiv. rewrite Rmult_assoc, Rinv_l by lra. lra. }
    lra.
  Qed.

  (** what each value is: minus log10 of the product over the weights of 1 (no new extreme) or the
      tail probability of the fitted distribution *)
  Theorem C43_value : forall N c w window method r i, shape N c w -> ESE c w window method = Ok r ->
    (window <= i < N)%nat ->
    exists h, length h = c /\ nth i r 0 = - (ln (fold_left Rmult h 1) / ln 10) /\
      forall j, (j < c)%nat -> exists peaks t,
        let v := nth i (increments N w j) 0 in
        pot sort (slice (increments N w j) (i - window) i) method = Ok (peaks ++ [t]) /\
        (v <= t -> nth j h 0 = 1) /\
        (t < v -> exists shape_ loc scale, fit (peaks ++ [t]) t = Ok (shape_, loc, scale) /\
           (loc <= v -> nth j h 0 = 1 - cdf v shape_ loc scale + / 10 ^ 20) /\ (v < loc -> nth j h 0 = 1)).
  Proof.
    intros N c w window method r i Hw E Hi.
    destruct (ESE_inv N c w window method r Hw E) as (_ & _ & _ & H). destruct (H i Hi) as (h & Hl & Hv & Hc).
    exists h. split; auto. split; auto. intros j Hj. specialize (Hc j Hj).
    rewrite (increments_eq N c) in Hc by auto. unfold ese_cell in Hc.
    destruct (pot sort _ method) as [po|] eqn:Ep; [|discriminate]. cbn [rbind] in Hc.
    destruct (rev po) as [|t p] eqn:Er; [discriminate|].
    assert (Epo : po = rev p ++ [t]) by (rewrite <- (rev_involutive po), Er; reflexivity).
    exists (rev p), t. intros v. rewrite <- Epo. split; auto.
    change (nltb t (nth i (increments N w j) n0)) with (Rltb t v) in Hc.
    unfold Rltb in Hc. destruct (Rlt_dec t v).
    - split; [intros; lra|]. intros _. destruct (fit po t) as [[[c0 loc] scale]|]; [|discriminate].
      exists c0, loc, scale. split; auto. cbn [rbind] in Hc.
      change (nleb loc (nth i (increments N w j) n0)) with (Rleb loc v) in Hc.
      unfold Rleb in Hc. destruct (Rle_dec loc v).
      + split; [|intros; lra]. intros _. injection Hc as Hc. rewrite <- Hc. fold v. simpl. rewrite tiny_val. reflexivity.
      + split; [intros; lra|]. intros _. injection Hc as Hc. rewrite <- Hc. reflexivity.
    - split; [|intros; lra]. intros _. injection Hc as Hc. rewrite <- Hc. reflexivity.
  Qed.

  (** an unknown method makes ESE raise IndexError as soon as one sample is to be evaluated *)
  Theorem C43_unknown_method : forall N c w window method, shape N c w -> (0 < c)%nat -> (window < N)%nat -> ~ known method ->
    ESE c w window method = Err IndexError.
  Proof.
    intros N c w window method Hw Hc Hwd Hk. destruct (ese_dw_ok N c w Hw) as ((Hl & _) & _).
    unfold Detection.ESE. rewrite Hl. destruct (Nat.ltb_spec N window); [lia|].
    replace (N - window)%nat with (S (N - window - 1)) by lia. cbn [seq map sequence].
    destruct c as [|c]; [lia|]. cbn [seq map sequence]. unfold ese_cell at 1. rewrite C42_unknown_method by auto. reflexivity.
  Qed.

  (** otherwise the call succeeds *)
  Theorem C43_total : forall N c w window method, shape N c w -> (0 < window <= N)%nat -> known method ->
    (method = "log10log10"%string -> window <> 10%nat) ->
    (forall p t, exists q, fit p t = Ok q) -> exists r, ESE c w window method = Ok r.
  Proof.
    intros N c w window method Hw Hwd Hk H10 Hfit. destruct (ese_dw_ok N c w Hw) as (HD & _). pose proof HD as (Hl & _).
    unfold Detection.ESE. rewrite Hl. destruct (Nat.ltb_spec N window); [lia|].
    assert (Hpot : forall data, length data = window -> exists p t, pot sort data method = Ok (p ++ [t])).
    { intros data Hd.
      assert (Hex : exists r k, pot sort data method = Ok r /\ k_largest k data r /\ (1 <= k)%nat).
      { destruct Hk as [<-|[<-|[<-|[<-|[<-|[]]]]]].
        - edestruct (C42_k_largest data "10%") as (r & H1 & H2); [left; split; reflexivity|]. exists r; eexists; repeat split; try apply H1; try apply H2. lia.
        - edestruct (C42_k_largest data "sqrt") as (r & H1 & H2); [right; right; left; split; reflexivity|]. exists r; eexists; repeat split; try apply H1; try apply H2. lia.
        - destruct (Nat.eq_dec window 1) as [E1|E1].
          + exists (slice_to (map Ropp (sort (map Ropp data))) (Z.of_nat 1)), 1%nat. split; [|split; [apply pot_k_largest|lia]].
            unfold pot, pot_count. rewrite Hd, E1. reflexivity.
          + destruct (C42_log10log10 data) as (r & k & H1 & H2 & H3 & _); [lia|rewrite Hd; auto|]. exists r, k; auto.
        - assert (Hp : exists p, (10 ^ p <= length data < 10 ^ S p)%nat).
          { rewrite Hd. clear - Hwd. destruct Hwd as (H & _). revert H. induction window as [|n IH]; intros H; [lia|].
            destruct n as [|n]; [exists 0%nat; simpl; lia|]. destruct IH as (p & Hp1 & Hp2); [lia|].
            destruct (Nat.lt_ge_cases (S (S n)) (10 ^ S p)); [exists p; lia|]. exists (S p).
            rewrite (Nat.pow_succ_r' 10 (S p)). pose proof (Nat.pow_nonzero 10 (S p) ltac:(lia)). lia. }
          destruct Hp as (p & Hp).
          edestruct (C42_k_largest data "log10") as (r & H1 & H2); [right; right; right; split; [reflexivity|exists p; split; [exact Hp|reflexivity]]|].
          exists r; eexists; repeat split; try apply H1; try apply H2. lia.
        - edestruct (C42_k_largest data "35%") as (r & H1 & H2); [right; left; split; reflexivity|]. exists r; eexists; repeat split; try apply H1; try apply H2. lia. }
      destruct Hex as (r & k & H1 & (H2 & _) & H3). rewrite Hd in H2.
      destruct (exists_last (l := r)) as (p & t & ->); [intros ->; simpl in H2; lia|]. eauto. }
    assert (Hcell : forall i j, (window <= i < N)%nat -> exists v, ese_cell sort fit cdf (column j (ese_dw w)) window i method = Ok v).
    { intros i j Hi. unfold ese_cell.
      destruct (Hpot (slice (column j (ese_dw w)) (i - window) i)) as (p & t & Ep).
      { unfold slice. rewrite firstn_length, skipn_length, (column_len solve). lia. }
      rewrite Ep. cbn [rbind]. rewrite rev_app_distr. cbn [rev app].
      destruct (nltb t _); [|eauto]. destruct (Hfit (p ++ [t]) t) as ([[c0 loc] scale] & ->). cbn [rbind].
      destruct (nleb loc _); eauto. }
    destruct (sequence_map_ok (fun i => sequence (map (fun j => ese_cell sort fit cdf (column j (ese_dw w)) window i method) (seq 0 c))) (seq window (N - window))) as (r & Hr & _).
    { intros i Hi. apply in_seq in Hi.
      destruct (sequence_map_ok (fun j => ese_cell sort fit cdf (column j (ese_dw w)) window i method) (seq 0 c)) as (h & Hh & _).
      - intros j Hj. apply Hcell. lia.
      - eauto. }
    rewrite Hr. cbn [rmap]. eauto.
  Qed.
End ESE.

(** non-vacuity: insertion sort sorts; a fit and a distribution function as required exist *)
Fixpoint rinsert (a : R) (l : rvec) : rvec :=
  match l with [] => [a] | b :: l' => if Rle_dec a b then a :: l else b :: rinsert a l' end.
Definition rsort (l : rvec) : rvec := fold_right rinsert [] l.
Lemma rinsert_perm a l : Permutation (rinsert a l) (a :: l).
Proof.
  induction l as [|b l IH]; simpl; auto. destruct (Rle_dec a b); auto.
  eapply perm_trans; [apply perm_skip, IH|apply perm_swap].
Qed.
Lemma ascending_cons a l : ascending l -> (forall b, In b l -> a <= b) -> ascending (a :: l).
Proof.
  intros Hl Ha [|i] [|j] H; simpl in *; try lia; [lra| |apply Hl; lia]. apply Ha, nth_In; lia.
Qed.
Lemma ascending_tail a l : ascending (a :: l) -> ascending l /\ forall b, In b l -> a <= b.
Proof.
  intros H; split.
  - intros i j Hij. apply (H (S i) (S j)); simpl; lia.
  - intros b Hb. apply (In_nth _ _ 0) in Hb as (k & Hk & <-). apply (H 0%nat (S k)); simpl; lia.
Qed.
Lemma rinsert_asc a l : ascending l -> ascending (rinsert a l).
Proof.
  induction l as [|b l IH]; intros H; simpl.
  - intros i j Hij; simpl in Hij. replace i with 0%nat by lia. replace j with 0%nat by lia. lra.
  - destruct (Rle_dec a b).
    + apply ascending_cons; auto. apply ascending_tail in H as (_ & H). intros c [<-|Hc]; auto. specialize (H c Hc); lra.
    + apply ascending_tail in H as (H1 & H2). apply ascending_cons; auto.
      intros c Hc. apply (Permutation_in _ (rinsert_perm a l)) in Hc as [<-|Hc]; auto. lra.
Qed.
Example C42_hypotheses : sorts rsort /\ pot_spec "10%" (length [3; 1; 2]) 1.
Proof.
  split; [|left; split; reflexivity]. intros v. unfold rsort. induction v as [|a v (IH1 & IH2)]; simpl.
  - split; auto. intros i j H; simpl in H; lia.
  - split; [|apply rinsert_asc; auto]. eapply perm_trans; [apply rinsert_perm|auto].
Qed.
Example C43_hypotheses : shape 3 1 [[0]; [1]; [5]] /\ (0 < 2 <= 3)%nat /\ known "35%" /\
  (forall a b c d : R, 0 <= (fun _ _ _ _ => 1 / 2) a b c d <= 1) /\
  (forall (p : rvec) t, exists q : R * R * R, (fun _ t => Ok (0, t, 1)) p t = Ok q).
Proof.
  split; [split; [reflexivity|repeat constructor]|]. split; [lia|]. split; [unfold known; simpl; tauto|].
  split; [intros; lra|]. intros; eauto.
Qed.

(** float64: int(0.35 * 180) is 62, one less than 35 % of 180 *)
From Coq Require Import PrimFloat.
Theorem C42_float_35_percent_refuted : exists n : nat,
  pot_count (NT := FNum (fun _ _ => None)) n "35%" <> Ok (Z.of_nat (Nat.max (35 * n / 100) 1)).
Proof.
  exists 180%nat.
  assert (H : pot_count (NT := FNum (fun _ _ => None)) 180 "35%" = Ok 62%Z) by (vm_compute; reflexivity).
  rewrite H. intros Hc. vm_compute in Hc. discriminate.
Qed.
