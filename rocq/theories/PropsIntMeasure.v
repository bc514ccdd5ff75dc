(** C105: the error measures of integer series. *)
From Coq Require Import Reals Lra Psatz.
From Verif Require Import Py Num Numpy Misc RVec IntModel PropsInt.
Open Scope Z_scope.

(** ** Specification *)
(** the integers that the type t can hold *)
Definition holds (t : itype) (z : Z) : Prop :=
  if signed t then - 2 ^ (bits t - 1) <= z < 2 ^ (bits t - 1) else 0 <= z < 2 ^ bits t.
(** the second argument: left out, or a second series *)
Definition second (b : option (list Z)) : arg2 R := match b with None => AInt (-1) | Some b => ASeries (map IZR b) end.
(** two integer series of type t and the same length N > 0, or one series of errors *)
Definition series (t : itype) (a : list Z) (b : option (list Z)) : Prop :=
  Forall (holds t) a /\ a <> [] /\ match b with None => True | Some b => Forall (holds t) b /\ length a = length b end.
(** the exact errors *)
Definition differences (a : list Z) (b : option (list Z)) : list Z := match b with None => a | Some b => map2 Z.sub a b end.
(** the exact sum of their squares *)
Fixpoint sumsq (l : list Z) : Z := match l with [] => 0 | z :: l => z * z + sumsq l end.
Fixpoint sumz (l : list Z) : Z := match l with [] => 0 | z :: l => z + sumz l end.
(** how many errors are negative *)
Definition below (l : list Z) : Z := Z.of_nat (length (filter (fun z => z <? 0) l)).
(** at how many places the series differ *)
Definition unequal (l : list Z) : Z := Z.of_nat (length (filter (fun z => negb (z =? 0)) l)).

(** ** Arithmetic modulo 2^bits *)
Lemma wrap_mod t z : 0 < bits t -> wrapZ t z mod 2 ^ bits t = z mod 2 ^ bits t.
Proof.
  intros Hb. assert (HM : 0 < 2 ^ bits t) by (apply Z.pow_pos_nonneg; lia). unfold wrapZ. destruct (signed t).
  - rewrite Zminus_mod_idemp_l. f_equal. lia.
  - apply Z.mod_mod. lia.
Qed.
Lemma wrap_holds t z : 0 < bits t -> holds t (wrapZ t z).
Proof.
  intros Hb. assert (HM : 0 < 2 ^ bits t) by (apply Z.pow_pos_nonneg; lia). pose proof (pow_split (bits t) Hb) as E. unfold holds, wrapZ. destruct (signed t).
  - pose proof (Z.mod_pos_bound (z + 2 ^ (bits t - 1)) (2 ^ bits t) HM). lia.
  - apply Z.mod_pos_bound. exact HM.
Qed.
Lemma wrap_congr t a b : a mod 2 ^ bits t = b mod 2 ^ bits t -> wrapZ t a = wrapZ t b.
Proof.
  intros H. unfold wrapZ. destruct (signed t); [|exact H]. rewrite <- Zplus_mod_idemp_l, H, Zplus_mod_idemp_l. reflexivity.
Qed.
Lemma sumsq_wrap t l : 0 < bits t -> wrapZ t (sumsq (map (wrapZ t) l)) = wrapZ t (sumsq l).
Proof.
  intros Hb. apply wrap_congr. induction l as [|z l IH]; [reflexivity|]. cbn [sumsq map].
  rewrite Zplus_mod, IH, Zmult_mod, wrap_mod, <- Zmult_mod, <- Zplus_mod by exact Hb. reflexivity.
Qed.
Lemma sumsq_nonneg l : 0 <= sumsq l.
Proof. induction l as [|z l IH]; cbn [sumsq]; nia. Qed.

Section Any.
  Context {T : Type} {NT : Num T}.
  (** *** C105: float64 series *)
  Theorem C105_float_arrays : forall (x1 : list T) (x2 : arg2 T),
    get_valid_error_int (fun r => r) x1 x2 = get_valid_error x1 x2 /\ logSE_int (fun r => r) x1 x2 = logSE x1 x2 /\
    MAE_int (fun r => r) (fun r => r) x1 x2 = MAE x1 x2 /\ MSE_int (fun r => r) x1 x2 = MSE x1 x2 /\ RMSE_int (fun r => r) x1 x2 = RMSE x1 x2.
  Proof. intros x1 x2. repeat split. Qed.
End Any.

Section S.
  Variable solve : list rvec -> list rvec -> option (list rvec).
  #[local] Hint Extern 0 (Num R) => exact (RNum solve) : typeclass_instances.

  Lemma map2_Zsub a b : map2 (@nsub R (RNum solve)) (map IZR a) (map IZR b) = map IZR (map2 Z.sub a b).
  Proof. revert b. induction a as [|z a IH]; intros [|y b]; try reflexivity. cbn [map map2]. rewrite IH. f_equal. cbn. rewrite <- minus_IZR. reflexivity. Qed.
  Lemma map2_Zsub_wrap t a b : map2 (fun p q => wrapR t (@nsub R (RNum solve) p q)) (map IZR a) (map IZR b) = map IZR (map (wrapZ t) (map2 Z.sub a b)).
  Proof.
    revert b. induction a as [|z a IH]; intros [|y b]; try reflexivity. cbn [map map2]. rewrite IH. f_equal.
    change (wrapR t (IZR z - IZR y) = IZR (wrapZ t (z - y))). rewrite <- minus_IZR, wrapR_Z. reflexivity.
  Qed.
  Lemma valid t a b : 0 < bits t -> series t a b ->
    get_valid_error (map IZR a) (second b) = Ok (map IZR (differences a b)) /\
    get_valid_error_int (wrapR t) (map IZR a) (second b) = Ok (map IZR (map (wrapZ t) (differences a b))) /\
    length (differences a b) = length a.
  Proof.
    intros Hb (Ha & _ & H). destruct b as [b|].
    - destruct H as (H & Hl). unfold get_valid_error, get_valid_error_int, second, differences. rewrite !map_length, Hl, Nat.eqb_refl.
      rewrite map2_Zsub, map2_Zsub_wrap. split; [reflexivity|]. split; [reflexivity|]. rewrite <- Hl. apply StructProofs.map2_length_eq; congruence.
    - split; [reflexivity|]. split; [|reflexivity]. unfold get_valid_error_int, second, differences. change (-1 =? -1) with true. cbv iota. f_equal.
      rewrite map_map. apply map_ext_in. intros z Hz. f_equal. symmetry. rewrite Forall_forall in Ha. apply wrap_fits; [exact Hb|]. exact (Ha z Hz).
  Qed.
  Lemma dot_sumsq l : Rdot (map IZR l) (map IZR l) = IZR (sumsq l).
  Proof. induction l as [|z l IH]; [reflexivity|]. cbn [map Rdot sumsq]. rewrite IH, plus_IZR, mult_IZR. reflexivity. Qed.

  Open Scope R_scope.
  Lemma count_pos t a b : (0 < bits t)%Z -> series t a b -> 0 < INR (length a).
  Proof. intros _ (_ & H & _). apply lt_0_INR. destruct a; [congruence|]. cbn [length]. lia. Qed.
  Lemma MSE_value t a b : (0 < bits t)%Z -> series t a b ->
    MSE (map IZR a) (second b) = Ok (IZR (sumsq (differences a b)) / INR (length a)) /\
    MSE_int (wrapR t) (map IZR a) (second b) = Ok (IZR (wrapZ t (sumsq (differences a b))) / INR (length a)).
  Proof.
    intros Hb Hs. destruct (valid t a b Hb Hs) as (E1 & E2 & El). unfold MSE, MSE_int. rewrite E1, E2. cbn [rmap]. rewrite !map_length, El.
    change (@ndot R (RNum solve)) with Rdot. rewrite !dot_sumsq, wrapR_Z, sumsq_wrap by exact Hb.
    assert (HN : @nofnat R (RNum solve) (length a) = INR (length a)) by (unfold nofnat; cbn; rewrite <- INR_IZR_INZ; reflexivity).
    rewrite HN. split; reflexivity.
  Qed.

  (** *** C105: MSE *)
  Theorem C105_MSE : forall t a b, (0 < bits t)%Z -> series t a b ->
    exists exact got, MSE (map IZR a) (second b) = Ok exact /\ MSE_int (wrapR t) (map IZR a) (second b) = Ok got /\
      exact = IZR (sumsq (differences a b)) / INR (length a) /\ got <= exact /\
      (exists q : nat, exact - got = INR q * IZR (2 ^ bits t) / INR (length a)) /\
      (got = exact <-> (sumsq (differences a b) < 2 ^ (if signed t then bits t - 1 else bits t))%Z) /\
      got < IZR (2 ^ (if signed t then bits t - 1 else bits t)) / INR (length a).
  Proof.
    intros t a b Hb Hs. destruct (MSE_value t a b Hb Hs) as (E1 & E2). pose proof (count_pos t a b Hb Hs) as HN. set (N := INR (length a)) in *.
    set (q := sumsq (differences a b)) in *. pose proof (sumsq_nonneg (differences a b)) as Hq. fold q in Hq.
    pose proof (wrap_holds t q Hb) as HH. pose proof (wrap_mod t q Hb) as HM. pose proof (pow_split (bits t) Hb) as HP.
    assert (H2 : (0 < 2 ^ bits t)%Z) by (apply Z.pow_pos_nonneg; lia).
    assert (HK : (exists k : nat, q - wrapZ t q = Z.of_nat k * 2 ^ bits t)%Z).
    { assert (HD : ((q - wrapZ t q) mod 2 ^ bits t = 0)%Z) by (rewrite Zminus_mod, HM, Z.sub_diag; apply Z.mod_0_l; lia).
      apply Z.mod_divide in HD; [|lia]. destruct HD as (k & Hk).
      assert (0 <= k)%Z. { unfold holds in HH. destruct (signed t); nia. }
      exists (Z.to_nat k). rewrite Z2Nat.id by assumption. exact Hk. }
    destruct HK as (k & Hk). assert (Hi : 0 < / N) by (apply Rinv_0_lt_compat; exact HN).
    exists (IZR q / N), (IZR (wrapZ t q) / N). split; [exact E1|]. split; [exact E2|]. split; [reflexivity|].
    split; [apply Rmult_le_compat_r; [lra|]; apply IZR_le; nia|].
    split; [exists k; unfold Rdiv; rewrite <- Rmult_minus_distr_r, <- minus_IZR, Hk, mult_IZR, <- INR_IZR_INZ; reflexivity|].
    split.
    - split.
      + intros H. apply Rmult_eq_reg_r in H; [|lra]. apply eq_IZR in H. unfold holds in HH. destruct (signed t); lia.
      + intros H. rewrite wrap_fits; [reflexivity|exact Hb|]. destruct (signed t); [|lia]. assert (0 < 2 ^ (bits t - 1))%Z by (apply Z.pow_pos_nonneg; lia). lia.
    - apply Rmult_lt_compat_r; [exact Hi|]. apply IZR_lt. unfold holds in HH. destruct (signed t); lia.
  Qed.
  (** long signed series: at most 1, whatever the errors *)
  Theorem C105_MSE_long : forall t a b, (0 < bits t)%Z -> series t a b -> (2 ^ (if signed t then bits t - 1 else bits t) <= Z.of_nat (length a))%Z ->
    exists got, MSE_int (wrapR t) (map IZR a) (second b) = Ok got /\ got < 1.
  Proof.
    intros t a b Hb Hs HN. destruct (C105_MSE t a b Hb Hs) as (ex & got & _ & E & _ & _ & _ & _ & H). exists got. split; [exact E|].
    eapply Rlt_le_trans; [exact H|]. pose proof (count_pos t a b Hb Hs) as HP. apply IZR_le in HN. rewrite <- INR_IZR_INZ in HN.
    apply (Rmult_le_reg_r (INR (length a))); [exact HP|]. unfold Rdiv. rewrite Rmult_assoc, Rinv_l by lra. lra.
  Qed.
  (** *** C105: RMSE *)
  Theorem C105_RMSE : forall t a b, (0 < bits t)%Z -> series t a b -> (sumsq (differences a b) < 2 ^ (if signed t then bits t - 1 else bits t))%Z ->
    RMSE_int (wrapR t) (map IZR a) (second b) = RMSE (map IZR a) (second b).
  Proof.
    intros t a b Hb Hs H. destruct (valid t a b Hb Hs) as (E1 & E2 & El). unfold RMSE, RMSE_int. rewrite E1, E2. cbn [rmap]. rewrite !map_length.
    change (@ndot R (RNum solve)) with Rdot. rewrite !dot_sumsq, wrapR_Z, sumsq_wrap by exact Hb.
    pose proof (sumsq_nonneg (differences a b)) as Hq.
    rewrite wrap_fits; [reflexivity|exact Hb|]. destruct (signed t); [|lia]. assert (0 < 2 ^ (bits t - 1))%Z by (apply Z.pow_pos_nonneg; lia). lia.
  Qed.

  (** *** C105: logSE *)
  Theorem C105_logSE : forall t a b, (0 < bits t)%Z -> series t a b ->
    exists exact got, logSE (map IZR a) (second b) = Ok exact /\ logSE_int (wrapR t) (map IZR a) (second b) = Ok got /\ length got = length a /\
      forall i, (i < length a)%nat -> let z := nth i (differences a b) 0%Z in
        nth i exact 0 = 10 * nlog10 (IZR (z * z)) /\ nth i got 0 = 10 * nlog10 (IZR (wrapZ t (z * z))) /\
        ((z * z < 2 ^ (if signed t then bits t - 1 else bits t))%Z -> nth i got 0 = nth i exact 0) /\
        (((2 ^ bits t) | z * z)%Z -> nth i got 0 = 10 * nlog10 0).
  Proof.
    intros t a b Hb Hs. destruct (valid t a b Hb Hs) as (E1 & E2 & El). unfold logSE, logSE_int. rewrite E1, E2. cbn [rmap]. do 2 eexists. split; [reflexivity|]. split; [reflexivity|].
    rewrite !map_map. split; [rewrite !map_length; exact El|]. cbv zeta. intros i Hi. set (z := nth i (differences a b) 0%Z). rewrite <- El in Hi.
    assert (HA : forall f : Z -> R, nth i (map f (differences a b)) 0 = f z).
    { intros f. rewrite nth_indep with (d' := f 0%Z) by (rewrite map_length; exact Hi). apply map_nth. }
    assert (HE : nth i (map (fun x => nmul (nofZ 10) (nlog10 (npown (IZR x) 2))) (differences a b)) 0 = 10 * nlog10 (IZR (z * z))).
    { rewrite HA. cbn. rewrite Rmult_1_r, <- mult_IZR. reflexivity. }
    assert (HG : nth i (map (fun x => nmul (nofZ 10) (nlog10 (wrapR t (npown (IZR (wrapZ t x)) 2)))) (differences a b)) 0 = 10 * nlog10 (IZR (wrapZ t (z * z)))).
    { rewrite HA. change (npown (IZR (wrapZ t z)) 2) with (IZR (wrapZ t z) * (IZR (wrapZ t z) * 1)). rewrite Rmult_1_r, <- mult_IZR, wrapR_Z.
      rewrite (wrap_congr t (wrapZ t z * wrapZ t z) (z * z)); [reflexivity|]. rewrite Zmult_mod, wrap_mod, <- Zmult_mod by exact Hb. reflexivity. }
    split; [exact HE|]. split; [exact HG|]. split.
    - intros H. rewrite HE. etransitivity; [exact HG|]. rewrite wrap_fits; [reflexivity|exact Hb|].
      assert (0 <= z * z)%Z by nia. destruct (signed t); [|lia]. assert (0 < 2 ^ (bits t - 1))%Z by (apply Z.pow_pos_nonneg; lia). lia.
    - intros H. etransitivity; [exact HG|]. rewrite (wrap_congr t (z * z) 0).
      + rewrite wrap_fits; [reflexivity|exact Hb|]. destruct (signed t); [assert (0 < 2 ^ (bits t - 1))%Z by (apply Z.pow_pos_nonneg; lia); lia|]. assert (0 < 2 ^ bits t)%Z by (apply Z.pow_pos_nonneg; lia). lia.
      + assert (0 < 2 ^ bits t)%Z by (apply Z.pow_pos_nonneg; lia). rewrite Z.mod_0_l by lia. apply Z.mod_divide; [lia|exact H].
  Qed.

  (** *** C105: MAE; np.sum adds in 64 bits *)
  Definition wide (t : itype) : itype := mkI 64 (signed t).
  Lemma sum_sumz l : Rsum (map IZR l) = IZR (sumz l).
  Proof. induction l as [|z l IH]; [reflexivity|]. cbn [map Rsum sumz]. rewrite IH, plus_IZR. reflexivity. Qed.
  Lemma sumz_bound (m : Z) l : (0 <= m)%Z -> Forall (fun z => - m <= z <= m)%Z l -> (- (Z.of_nat (length l) * m) <= sumz l <= Z.of_nat (length l) * m)%Z.
  Proof. intros Hm H. induction H as [|z l Hz H IH]; [cbn; lia|]. cbn [length sumz]. lia. Qed.
  Lemma sumz_nonneg l : Forall (fun z => 0 <= z)%Z l -> (0 <= sumz l)%Z.
  Proof. intros H. induction H; cbn [sumz]; lia. Qed.
  Definition term (t : itype) (z : Z) : Z := wrapZ t (Z.abs (wrapZ t z)).
  Lemma term_bound t z : (0 < bits t)%Z -> (- 2 ^ bits t <= term t z <= 2 ^ bits t)%Z /\ (signed t = false -> 0 <= term t z)%Z.
  Proof.
    intros Hb. pose proof (wrap_holds t (Z.abs (wrapZ t z)) Hb) as H. fold (term t z) in H. pose proof (pow_split (bits t) Hb) as HP.
    assert (0 < 2 ^ bits t)%Z by (apply Z.pow_pos_nonneg; lia). unfold holds in H. destruct (signed t); split; try lia; intros; congruence.
  Qed.
  Lemma MAE_value t a b : (0 < bits t)%Z -> series t a b -> (Z.of_nat (length a) * 2 ^ bits t < 2 ^ 63)%Z ->
    MAE (map IZR a) (second b) = Ok (IZR (sumz (map Z.abs (differences a b))) / INR (length a)) /\
    MAE_int (wrapR t) (wrapR (wide t)) (map IZR a) (second b) = Ok (IZR (sumz (map (term t) (differences a b))) / INR (length a)).
  Proof.
    intros Hb Hs HS. destruct (valid t a b Hb Hs) as (E1 & E2 & El). unfold MAE, MAE_int. rewrite E1, E2. cbn [rmap]. rewrite !map_length, El.
    assert (HN : @nofnat R (RNum solve) (length a) = INR (length a)) by (unfold nofnat; cbn; rewrite <- INR_IZR_INZ; reflexivity).
    rewrite HN. change (@nsum R (RNum solve)) with Rsum. change (@nabs R (RNum solve)) with Rabs.
    assert (H1 : map Rabs (map IZR (differences a b)) = map IZR (map Z.abs (differences a b))).
    { rewrite !map_map. apply map_ext. intros z. rewrite abs_IZR. reflexivity. }
    assert (H2 : map (fun r => wrapR t (Rabs r)) (map IZR (map (wrapZ t) (differences a b))) = map IZR (map (term t) (differences a b))).
    { rewrite !map_map. apply map_ext. intros z. rewrite <- abs_IZR, wrapR_Z. reflexivity. }
    rewrite H1, H2, !sum_sumz, wrapR_Z. split; [reflexivity|]. rewrite wrap_fits; [reflexivity|cbn; lia|].
    assert (HB : (- (Z.of_nat (length a) * 2 ^ bits t) <= sumz (map (term t) (differences a b)) <= Z.of_nat (length a) * 2 ^ bits t)%Z).
    { rewrite <- El. rewrite <- (map_length (term t) (differences a b)). apply sumz_bound; [apply Z.pow_nonneg; lia|]. apply Forall_forall. intros z Hz. apply in_map_iff in Hz.
      destruct Hz as (y & <- & _). apply term_bound; exact Hb. }
    unfold wide. cbn [bits signed]. destruct (signed t) eqn:Es; [lia|]. split; [|lia]. apply sumz_nonneg. apply Forall_forall. intros z Hz. apply in_map_iff in Hz.
    destruct Hz as (y & <- & _). apply term_bound; assumption.
  Qed.
  Lemma diff_bound t a b : (0 < bits t)%Z -> series t a b -> Forall (fun z => - 2 ^ bits t < z < 2 ^ bits t)%Z (differences a b).
  Proof.
    intros Hb (Ha & _ & H). pose proof (pow_split (bits t) Hb) as HP. assert (HM : (0 < 2 ^ (bits t - 1))%Z) by (apply Z.pow_pos_nonneg; lia).
    assert (HH : forall z, holds t z -> (- 2 ^ bits t < z < 2 ^ bits t)%Z) by (intros z Hz; unfold holds in Hz; destruct (signed t); lia).
    destruct b as [b|]; cbn [differences].
    - destruct H as (Hbb & Hl). revert b Hbb Hl. induction Ha as [|z a Hz Ha IH]; intros [|y b] Hbb Hl; try discriminate; [constructor|]. cbn [map2]. constructor.
      + pose proof (Forall_inv Hbb) as Hy. unfold holds in *. destruct (signed t); lia.
      + apply IH; [exact (Forall_inv_tail Hbb)|cbn in Hl; lia].
    - revert Ha. apply Forall_impl. exact HH.
  Qed.
  (** signed series: an error counts too little, or even negative, as soon as it does not fit *)
  Theorem C105_MAE_signed : forall t a b, (0 < bits t)%Z -> signed t = true -> series t a b -> (Z.of_nat (length a) * 2 ^ bits t < 2 ^ 63)%Z ->
    exists exact got, MAE (map IZR a) (second b) = Ok exact /\ MAE_int (wrapR t) (wrapR (wide t)) (map IZR a) (second b) = Ok got /\
      exact = IZR (sumz (map Z.abs (differences a b))) / INR (length a) /\ got <= exact /\
      (got = exact <-> Forall (fun z => Z.abs z < 2 ^ (bits t - 1))%Z (differences a b)).
  Proof.
    intros t a b Hb Ht Hs HS. destruct (MAE_value t a b Hb Hs HS) as (E1 & E2). pose proof (count_pos t a b Hb Hs) as HN.
    assert (Hi : 0 < / INR (length a)) by (apply Rinv_0_lt_compat; exact HN).
    pose proof (diff_bound t a b Hb Hs) as HD. set (D := differences a b) in *. clearbody D.
    pose proof (pow_split (bits t) Hb) as HP. assert (HM : (0 < 2 ^ (bits t - 1))%Z) by (apply Z.pow_pos_nonneg; lia).
    assert (HT : forall z, (- 2 ^ bits t < z < 2 ^ bits t)%Z -> (term t z <= Z.abs z)%Z /\ (term t z = Z.abs z <-> (Z.abs z < 2 ^ (bits t - 1)))%Z).
    { intros z Hz.
      assert (HF : forall y, (- 2 ^ (bits t - 1) <= y < 2 ^ (bits t - 1))%Z -> wrapZ t y = y) by (intros y Hy; apply wrap_fits; [exact Hb|rewrite Ht; exact Hy]).
      unfold term. destruct (Z_lt_le_dec z (2 ^ (bits t - 1))) as [H1|H1].
      - destruct (Z_lt_le_dec z (- 2 ^ (bits t - 1))) as [H2|H2].
        + assert (E : wrapZ t z = (z + 2 ^ bits t)%Z).
          { rewrite (wrap_congr t z (z + 2 ^ bits t)); [apply HF; lia|]. rewrite <- (Z.mul_1_l (2 ^ bits t)) at 2. symmetry. apply Z.mod_add. lia. }
          rewrite E. rewrite HF by lia. lia.
        + rewrite (HF z) by lia. destruct (Z.eq_dec z (- 2 ^ (bits t - 1))) as [->|H3].
          * rewrite (wrap_over t) by (auto; lia). lia.
          * rewrite HF by lia. lia.
      - rewrite (wrap_over t z) by (auto; lia). destruct (Z.eq_dec z (2 ^ (bits t - 1))) as [->|H3].
        + replace (Z.abs (2 ^ (bits t - 1) - 2 ^ bits t)) with (2 ^ (bits t - 1))%Z by lia. rewrite (wrap_over t) by (auto; lia). lia.
        + rewrite HF by lia. lia. }
    assert (HL : (sumz (map (term t) D) <= sumz (map Z.abs D))%Z /\ (sumz (map (term t) D) = sumz (map Z.abs D) <-> Forall (fun z => Z.abs z < 2 ^ (bits t - 1))%Z D)).
    { clear E1 E2. induction HD as [|z D Hz HD IH]; [split; [cbn; lia|]; split; [constructor|reflexivity]|]. cbn [map sumz]. destruct (HT z Hz) as (T1 & T2). destruct IH as (I1 & I2).
      split; [lia|]. split.
      - intros H. constructor; [apply T2; lia|apply I2; lia].
      - intros H. pose proof (proj2 T2 (Forall_inv H)). pose proof (proj2 I2 (Forall_inv_tail H)). lia. }
    destruct HL as (L1 & L2). do 2 eexists. split; [exact E1|]. split; [exact E2|]. split; [reflexivity|].
    split; [apply Rmult_le_compat_r; [lra|]; apply IZR_le; exact L1|]. split.
    - intros H. apply L2. apply Rmult_eq_reg_r in H; [|lra]. apply eq_IZR in H. exact H.
    - intros H. rewrite (proj2 L2 H). reflexivity.
  Qed.
  (** unsigned series: an error below zero counts as 2^bits minus its size *)
  Theorem C105_MAE_unsigned : forall t a b, (0 < bits t)%Z -> signed t = false -> series t a (Some b) -> (Z.of_nat (length a) * 2 ^ bits t < 2 ^ 63)%Z ->
    exists exact got back, MAE (map IZR a) (ASeries (map IZR b)) = Ok exact /\ MAE (map IZR b) (ASeries (map IZR a)) = Ok exact /\
      MAE_int (wrapR t) (wrapR (wide t)) (map IZR a) (ASeries (map IZR b)) = Ok got /\ MAE_int (wrapR t) (wrapR (wide t)) (map IZR b) (ASeries (map IZR a)) = Ok back /\
      got = IZR (sumz (map2 Z.sub a b) + below (map2 Z.sub a b) * 2 ^ bits t) / INR (length a) /\
      (below (map2 Z.sub a b) = 0%Z -> got = exact) /\
      got + back = IZR (unequal (map2 Z.sub a b) * 2 ^ bits t) / INR (length a).
  Proof.
    intros t a b Hb Ht Hs HS. pose proof Hs as (Ha & Hne & Hbb & Hl).
    assert (Hs2 : series t b (Some a)) by (split; [exact Hbb|split; [intros ->; destruct a; [congruence|discriminate Hl]|split; [exact Ha|symmetry; exact Hl]]]).
    destruct (MAE_value t a (Some b) Hb Hs HS) as (E1 & E2). destruct (MAE_value t b (Some a) Hb Hs2) as (E3 & E4); [rewrite <- Hl; exact HS|].
    pose proof (diff_bound t a (Some b) Hb Hs) as HD. unfold second, differences in *. rewrite <- Hl in E3, E4.
    assert (Hopp : map2 Z.sub b a = map Z.opp (map2 Z.sub a b)).
    { clear. revert b. induction a as [|z a IH]; intros [|y b]; try reflexivity. cbn [map2 map]. rewrite IH. f_equal. lia. }
    rewrite Hopp in E3, E4. set (D := map2 Z.sub a b) in *. clearbody D. assert (HM : (0 < 2 ^ bits t)%Z) by (apply Z.pow_pos_nonneg; lia).
    assert (HT : forall z, (- 2 ^ bits t < z < 2 ^ bits t)%Z -> term t z = (z + if z <? 0 then 2 ^ bits t else 0)%Z).
    { intros z Hz. assert (HF : forall y, (0 <= y < 2 ^ bits t)%Z -> wrapZ t y = y) by (intros y Hy; apply wrap_fits; [exact Hb|rewrite Ht; exact Hy]).
      unfold term. destruct (z <? 0)%Z eqn:E; [apply Z.ltb_lt in E|apply Z.ltb_ge in E].
      - assert (Ew : wrapZ t z = (z + 2 ^ bits t)%Z).
        { rewrite (wrap_congr t z (z + 2 ^ bits t)); [apply HF; lia|]. rewrite <- (Z.mul_1_l (2 ^ bits t)) at 2. symmetry. apply Z.mod_add. lia. }
        rewrite Ew, HF by lia. lia.
      - rewrite (HF z) by lia. rewrite HF by lia. lia. }
    assert (A1 : sumz (map (term t) D) = (sumz D + below D * 2 ^ bits t)%Z).
    { clear - HD HT. induction HD as [|z D Hz HD IH]; [reflexivity|]. cbn [map sumz]. rewrite IH, (HT z Hz). unfold below. cbn [filter]. destruct (z <? 0)%Z; cbn [length]; lia. }
    assert (A2 : sumz (map Z.abs (map Z.opp D)) = sumz (map Z.abs D)).
    { rewrite map_map. f_equal. apply map_ext. intros z. apply Z.abs_opp. }
    assert (A3 : (sumz (map (term t) D) + sumz (map (term t) (map Z.opp D)) = unequal D * 2 ^ bits t)%Z).
    { clear - HD HT HM. induction HD as [|z D Hz HD IH]; [reflexivity|]. cbn [map sumz]. rewrite (HT z Hz), (HT (- z)%Z) by lia. unfold unequal in *. cbn [filter].
      destruct (z =? 0)%Z eqn:E0; cbn [negb length]; [apply Z.eqb_eq in E0|apply Z.eqb_neq in E0]; destruct (z <? 0)%Z eqn:E1; destruct (- z <? 0)%Z eqn:E2; lia. }
    assert (A4 : below D = 0%Z -> sumz (map Z.abs D) = sumz D).
    { clear. unfold below. induction D as [|z D IH]; [reflexivity|]. cbn [filter map sumz]. destruct (z <? 0)%Z eqn:E; [cbn [length]; lia|]. intros H. rewrite IH by exact H. apply Z.ltb_ge in E. lia. }
    do 3 eexists. split; [exact E1|]. split; [rewrite A2 in E3; exact E3|]. split; [exact E2|]. split; [exact E4|]. split; [rewrite A1; reflexivity|]. split.
    - intros H. rewrite A1, A4, H by exact H. rewrite Z.mul_0_l, Z.add_0_r. reflexivity.
    - unfold Rdiv. rewrite <- Rmult_plus_distr_r, <- plus_IZR, A3. reflexivity.
  Qed.

  (** the mean square of one error of 200 in 16 bits *)
  Theorem C105_MSE_negative : exists a got, series int16 a None /\ MSE_int (wrapR int16) (map IZR a) (second None) = Ok got /\ got < 0.
  Proof.
    assert (Hs : series int16 [200%Z] None) by (split; [constructor; [cbn; lia|constructor]|split; [discriminate|exact I]]).
    exists [200%Z], (-25536 / 1). split; [exact Hs|]. split; [exact (proj2 (MSE_value int16 [200%Z] None ltac:(cbn; lia) Hs))|lra].
  Qed.

  (** *** hypotheses *)
  Example C105_hypotheses :
    (series int16 [200%Z] None /\ MSE_int (wrapR int16) [200] (AInt (-1)) = Ok (-25536 / 1) /\
       (sumsq (differences [100%Z] None) < 2 ^ (if signed int16 then bits int16 - 1 else bits int16))%Z) /\
    (let t := mkI 8 true in let a := repeat 100%Z 128 in series t a None /\ (2 ^ (if signed t then bits t - 1 else bits t) <= Z.of_nat (length a))%Z) /\
    (series int16 [30000; -5]%Z (Some [-30000; 5]%Z) /\ (Z.of_nat 2 * 2 ^ bits int16 < 2 ^ 63)%Z) /\
    (series uint8 [5]%Z (Some [6]%Z) /\ (Z.of_nat 1 * 2 ^ bits uint8 < 2 ^ 63)%Z /\
       MAE_int (wrapR uint8) (wrapR (wide uint8)) [5] (ASeries [6]) = Ok (255 / 1) /\ MAE_int (wrapR uint8) (wrapR (wide uint8)) [6] (ASeries [5]) = Ok (1 / 1)) /\
    (2 ^ bits int16 | 256 * 256)%Z /\ series int16 [256%Z] None.
  Proof.
    assert (HO : forall t z, holds t z -> series t [z] None) by (intros t z H; split; [constructor; [exact H|constructor]|split; [discriminate|exact I]]).
    split; [|split; [|split; [|split; [|split]]]].
    - assert (Hs : series int16 [200%Z] None) by (apply HO; cbn; lia). split; [exact Hs|]. split; [|cbn; lia].
      exact (proj2 (MSE_value int16 [200%Z] None ltac:(cbn; lia) Hs)).
    - cbv zeta. split; [|rewrite repeat_length; cbn; lia]. split; [|split; [|exact I]].
      + apply Forall_forall. intros z Hz. apply repeat_spec in Hz. subst z. cbn. lia.
      + intros H. apply (f_equal (@length Z)) in H. rewrite repeat_length in H. discriminate H.
    - split; [|cbn; lia]. split; [repeat constructor; cbn; lia|]. split; [discriminate|]. split; [repeat constructor; cbn; lia|reflexivity].
    - assert (Hs : series uint8 [5]%Z (Some [6]%Z)) by (split; [repeat constructor; cbn; lia|]; split; [discriminate|]; split; [repeat constructor; cbn; lia|reflexivity]).
      assert (Hs2 : series uint8 [6]%Z (Some [5]%Z)) by (split; [repeat constructor; cbn; lia|]; split; [discriminate|]; split; [repeat constructor; cbn; lia|reflexivity]).
      split; [exact Hs|]. split; [cbn; lia|].
      split; [exact (proj2 (MAE_value uint8 _ _ ltac:(cbn; lia) Hs ltac:(cbn; lia)))|exact (proj2 (MAE_value uint8 _ _ ltac:(cbn; lia) Hs2 ltac:(cbn; lia)))].
    - exists 1%Z. reflexivity.
    - apply HO. cbn; lia.
  Qed.
End S.
