(** C130: how far the ELBND values computed in binary64 are from the true ones. *)
From Coq Require Import ZArith QArith Qreals Reals Lra Psatz Permutation Uint63 FloatOps FloatAxioms SpecFloat String.
From Coq Require PrimFloat.
From Flocq Require Import Core BinarySingleNaN.
From Flocq Require IEEE754.PrimFloat.
From Verif Require Import Py Num NumF Numpy Detection PropsMisc RMat RVec PropsDetection FloatErr PropsRound PropsRoundRun PropsWindup PropsNoOverflow PropsMeasureF.
Open Scope R_scope.
#[local] Existing Instance Flocq.IEEE754.PrimFloat.Hprec.
#[local] Existing Instance Flocq.IEEE754.PrimFloat.Hmax.
#[local] Notation bin := Flocq.IEEE754.PrimFloat.Prim2B.

(** ** Specification *)
Definition entF (w : list (list float)) (k i : nat) : float := nth i (nth k w []) PrimFloat.zero.
(** the exact product of increment i of the weights after sample k with the error; 0 for the last sample *)
Definition novelty (w : list (list float)) (e : list float) (k i : nat) : R :=
  if (S k <? List.length w)%nat then Rabs ((val (entF w (S k) i) - val (entF w k i)) * val (nth k e PrimFloat.zero)) else 0.

(** ** Comparisons and maxima *)
Lemma ltb_val a b : fin a -> fin b -> PrimFloat.ltb a b = true <-> val a < val b.
Proof.
  intros Fa Fb. rewrite Flocq.IEEE754.PrimFloat.ltb_equiv. rewrite fin_B in Fa, Fb. rewrite (Bltb_correct FloatOps.prec FloatOps.emax _ _ Fa Fb), <- !val_B.
  destruct (Rlt_bool_spec (val a) (val b)); split; intros; auto; try discriminate; lra.
Qed.
Lemma eqb_self a : fin a -> PrimFloat.eqb a a = true.
Proof.
  intros Fa. rewrite Flocq.IEEE754.PrimFloat.eqb_equiv. rewrite fin_B in Fa. rewrite (Beqb_correct FloatOps.prec FloatOps.emax _ _ Fa Fa). apply Req_bool_true. reflexivity.
Qed.
Lemma product_error t s ee d d2 h : Rabs d <= uro -> Rabs d2 <= uro -> Rabs h <= eta -> s = t * (1 + d) ->
  Rabs (Rabs (Rabs s * ee * (1 + d2) + h) - Rabs (t * ee)) <= 3 * uro * Rabs (t * ee) + eta.
Proof.
  intros Hd Hd2 Hh ->. pose proof uro_pos as Hu. assert (U1 : uro <= 1). { eapply Rle_trans; [apply uro_small|]. rewrite <- Rinv_1. apply Rinv_le_contravar; [lra|apply pow_R1_Rle; lra]. }
  assert (P : 0 <= 1 + d). { assert (- uro <= d) by (apply Rabs_le_inv in Hd; lra). lra. }
  replace (Rabs (t * ee)) with (Rabs (Rabs t * ee)) by (rewrite !Rabs_mult, Rabs_Rabsolu; reflexivity).
  eapply Rle_trans; [apply Rabs_triang_inv2|]. rewrite (Rabs_mult t (1 + d)), (Rabs_pos_eq (1 + d)) by exact P. set (q := Rabs t * ee).
  replace (Rabs t * (1 + d) * ee * (1 + d2) + h - q) with ((d + d2 + d * d2) * q + h) by (unfold q; ring).
  eapply Rle_trans; [apply Rabs_triang|]. apply Rplus_le_compat; [|exact Hh]. rewrite Rabs_mult. apply Rmult_le_compat_r; [apply Rabs_pos|].
  eapply Rle_trans; [apply Rabs_triang|]. assert (A : Rabs (d + d2) <= 2 * uro) by (eapply Rle_trans; [apply Rabs_triang|lra]). assert (B : Rabs (d * d2) <= uro) by (rewrite Rabs_mult; pose proof (Rabs_pos d); pose proof (Rabs_pos d2); nra). lra.
Qed.

Section C130.
  Variable solve : list (list float) -> list (list float) -> option (list (list float)).
  Variables (tanh exp : float -> float) (power : float -> float -> float) (sum : list float -> float) (dot : list float -> list float -> float).
  Hypothesis sum_ok : forall l, sums l (sum l).
  #[local] Hint Extern 0 (Num float) => exact (FNumD solve tanh exp power sum dot) : typeclass_instances.
  Notation fvec := (list float).

  Lemma nmax_val a b : fin a -> fin b -> fin (nmax a b) /\ val (nmax a b) = Rmax (val a) (val b) /\ (nmax a b = a \/ nmax a b = b).
  Proof.
    intros Fa Fb. assert (E : nmax a b = if PrimFloat.ltb a b then b else if PrimFloat.eqb b b then a else b) by reflexivity. rewrite E, (eqb_self b Fb).
    destruct (PrimFloat.ltb a b) eqn:L.
    - apply (ltb_val a b Fa Fb) in L. split; [exact Fb|]. split; [rewrite Rmax_right by lra; reflexivity|auto].
    - assert (~ val a < val b) by (intros H; apply (ltb_val a b Fa Fb) in H; congruence). split; [exact Fa|]. split; [rewrite Rmax_left by lra; reflexivity|auto].
  Qed.
  Lemma vmax_val (l : fvec) : forall a : float, fin a -> Forall fin l -> fin (vmax a l) /\ (vmax a l = a \/ In (vmax a l) l) /\ val a <= val (vmax a l) /\ forall b, In b l -> val b <= val (vmax a l).
  Proof.
    unfold vmax. induction l as [|b l IH]; intros a Fa Fl; cbn [fold_left]; [split; [exact Fa|]; split; [auto|]; split; [lra|intros ? []]|].
    destruct (nmax_val a b Fa (Forall_inv Fl)) as (F1 & V1 & C1). destruct (IH (nmax a b) F1 (Forall_inv_tail Fl)) as (F2 & C2 & A2 & B2). rewrite V1 in A2.
    pose proof (Rmax_l (val a) (val b)). pose proof (Rmax_r (val a) (val b)).
    split; [exact F2|]. split; [destruct C2 as [-> |C2]; [destruct C1 as [-> | ->]; [left; reflexivity|right; left; reflexivity]|right; right; exact C2]|].
    split; [lra|]. intros b' [<-|Hb]; [lra|apply B2; exact Hb].
  Qed.

  Section W.
  Variables (N c : nat) (w : list fvec) (e : fvec).
  Hypothesis Lw : List.length w = N.
  Hypothesis Rw : Forall (fun r => List.length r = c) w.
  Hypothesis Sw : Forall sane w.
  Hypothesis Le : List.length e = N.
  Hypothesis Se : sane e.

  Definition cells : list fvec := map2 (fun row ek => map (fun a => PrimFloat.abs (PrimFloat.mul a ek)) row) (elbnd_dw c w) e.
  Lemma diff1_nth (M : list fvec) k : (S k < List.length M)%nat -> nth k (diff1 M) [] = map2 PrimFloat.sub (nth (S k) M []) (nth k M []).
  Proof.
    unfold diff1. destruct M as [|a M]; [intros H; cbn in H; lia|]. cbn [tl]. intros H. assert (K : (k < List.length M)%nat) by (cbn [List.length] in H; lia).
    rewrite (map2_nth' _ _ _ _ ([] : fvec) ([] : fvec)); [reflexivity|first [exact K|cbn [List.length]; lia]|first [exact K|cbn [List.length]; lia]].
  Qed.
  Lemma diff1_len (M : list fvec) : List.length (diff1 M) = (List.length M - 1)%nat.
  Proof. unfold diff1. rewrite map2_len. destruct M; cbn; lia. Qed.
  Lemma dw_len : List.length (elbnd_dw c w) = N.
  Proof. unfold elbnd_dw, mabs. rewrite app_length, map_length, diff1_len, Lw. destruct w; cbn in *; lia. Qed.
  Lemma dw_nth k : (k < N)%nat -> nth k (elbnd_dw c w) [] = if (S k <? N)%nat then map PrimFloat.abs (map2 PrimFloat.sub (nth (S k) w []) (nth k w [])) else repeat PrimFloat.zero c.
  Proof.
    intros Hk. unfold elbnd_dw, mabs. destruct (Nat.ltb_spec (S k) N) as [L|L].
    - rewrite app_nth1 by (rewrite map_length, diff1_len; lia). rewrite (map_nth_lt _ _ _ ([] : fvec)) by (rewrite diff1_len; lia). rewrite diff1_nth by lia. reflexivity.
    - rewrite app_nth2 by (rewrite map_length, diff1_len; lia). rewrite map_length, diff1_len. replace (k - (List.length w - 1))%nat with 0%nat by lia. destruct w; [cbn in Lw; lia|]. reflexivity.
  Qed.
  Lemma row_len k : (k < N)%nat -> List.length (nth k w []) = c.
  Proof. intros Hk. rewrite Forall_forall in Rw. apply Rw, nth_In. lia. Qed.
  Lemma w_sane k i : (k < N)%nat -> (i < c)%nat -> fin (entF w k i) /\ Rabs (val (entF w k i)) <= 2 ^ 400.
  Proof.
    intros Hk Hi. unfold entF. rewrite Forall_forall in Sw. assert (HIn : In (nth k w []) w) by (apply nth_In; lia). pose proof (Sw _ HIn) as S1. unfold sane in S1. rewrite Forall_forall in S1. apply S1, nth_In. rewrite row_len by exact Hk. exact Hi.
  Qed.
  Lemma e_sane k : (k < N)%nat -> fin (nth k e PrimFloat.zero) /\ Rabs (val (nth k e PrimFloat.zero)) <= 2 ^ 400.
  Proof. intros Hk. unfold sane in Se. rewrite Forall_forall in Se. apply Se, nth_In. lia. Qed.

  Lemma cells_ok k : (k < N)%nat -> List.length (nth k cells []) = c /\ forall i, (i < c)%nat -> let b := nth i (nth k cells []) PrimFloat.zero in
    fin b /\ 0 <= val b <= 2 ^ 803 /\ Rabs (val b - novelty w e k i) <= 3 * uro * novelty w e k i + eta.
  Proof.
    intros Hk. unfold cells. rewrite (map2_nth' _ _ _ _ ([] : fvec) PrimFloat.zero) by (rewrite ?dw_len; lia). rewrite dw_nth by exact Hk.
    assert (LL : List.length (if (S k <? N)%nat then map PrimFloat.abs (map2 PrimFloat.sub (nth (S k) w []) (nth k w [])) else repeat PrimFloat.zero c) = c).
    { destruct (Nat.ltb_spec (S k) N); [rewrite map_length, map2_len, !row_len by lia; lia|apply repeat_length]. }
    split; [rewrite map_length; exact LL|]. intros i Hi. cbv zeta. rewrite (map_nth_lt _ _ _ PrimFloat.zero) by (rewrite LL; exact Hi).
    destruct (e_sane k Hk) as (Fe & Be). set (ek := nth k e PrimFloat.zero) in *. unfold novelty. rewrite Lw. fold ek. pose proof uro_pos as Hu. pose proof eta_pos as He.
    assert (P803 : 2 ^ 803 = 2 * 2 ^ 802) by (change 803%nat with (S 802); reflexivity). assert (P0 : 0 < 2 ^ 802) by (apply pow_lt; lra).
    assert (P802 : 2 ^ 402 * 2 ^ 400 = 2 ^ 802) by (rewrite <- pow_add; reflexivity).
    destruct (Nat.ltb_spec (S k) N) as [L|L].
    - rewrite (map_nth_lt _ _ _ PrimFloat.zero) by (rewrite map2_len, !row_len by lia; lia). rewrite (map2_nth' _ _ _ _ PrimFloat.zero PrimFloat.zero) by (rewrite row_len by lia; exact Hi).
      fold (entF w (S k) i) (entF w k i). destruct (w_sane (S k) i L Hi) as (F1 & B1). destruct (w_sane k i Hk Hi) as (F2 & B2).
      destruct (diff_err _ _ F1 F2 B1 B2) as (Fs & Bs & _ & d & Hd & Es). set (s := PrimFloat.sub (entF w (S k) i) (entF w k i)) in *.
      assert (Fm : fin (PrimFloat.mul (PrimFloat.abs s) ek)).
      { apply mul_ok; [apply abs_ok; exact Fs|exact Fe|]. rewrite abs_val, Rabs_mult, Rabs_Rabsolu. unfold cap. apply Rle_trans with (2 ^ 402 * 2 ^ 400); [apply Rmult_le_compat; auto using Rabs_pos|]. rewrite P802. apply Rle_pow; [lra|leb]. }
      split; [apply abs_ok; exact Fm|]. rewrite abs_val.
      destruct (mul_err _ _ Fm) as (d2 & h & Hd2 & Hh & Em). rewrite Em, abs_val.
      split; [split; [apply Rabs_pos|]|apply (product_error _ _ (val ek) d d2 h Hd Hd2 Hh Es)].
      assert (U1 : uro <= / 2). { eapply Rle_trans; [apply uro_small|]. apply Rinv_le_contravar; [lra|]. apply Rle_trans with (2 ^ 1); [lra|apply Rle_pow; [lra|leb]]. }
      assert (E1 : eta <= 1). { unfold eta. rewrite <- Rinv_1. apply Rinv_le_contravar; [lra|apply pow_R1_Rle; lra]. }
      eapply Rle_trans; [apply Rabs_triang|]. rewrite !Rabs_mult, Rabs_Rabsolu.
      assert (A : Rabs (val s) * Rabs (val ek) <= 2 ^ 802) by (rewrite <- P802; apply Rmult_le_compat; auto using Rabs_pos).
      assert (B : Rabs (1 + d2) <= 1 + / 2) by (eapply Rle_trans; [apply Rabs_triang|rewrite Rabs_R1; lra]).
      assert (C : Rabs (val s) * Rabs (val ek) * Rabs (1 + d2) <= 2 ^ 802 * (1 + / 2)) by (apply Rmult_le_compat; auto using Rabs_pos; apply Rmult_le_pos; apply Rabs_pos).
      assert (D : 2 <= 2 ^ 802) by (apply Rle_trans with (2 ^ 1); [lra|apply Rle_pow; [lra|leb]]). rewrite P803. lra.
    - assert (EZ : nth i (repeat PrimFloat.zero c) PrimFloat.zero = PrimFloat.zero) by (apply nth_repeat). rewrite EZ.
      assert (Fm : fin (PrimFloat.mul PrimFloat.zero ek)).
      { apply mul_ok; [exact (proj1 zero_fin)|exact Fe|]. rewrite (proj2 zero_fin), Rmult_0_l, Rabs_R0. unfold cap. apply pow_le; lra. }
      assert (Vm : val (PrimFloat.mul PrimFloat.zero ek) = 0). { destruct (mul_round _ _ Fm) as (_ & _ & ->). rewrite (proj2 zero_fin), Rmult_0_l. unfold rnd. apply round_0. apply valid_rnd_round_mode. }
      split; [apply abs_ok; exact Fm|]. rewrite abs_val, Vm, Rabs_R0. replace (0 - 0) with 0 by ring. rewrite Rabs_R0. lra.
  Qed.
  Lemma elbnd_cells f : ELBND c w e f = if negb (String.eqb f "max" || String.eqb f "sum") then Err ValueError else if String.eqb f "max" then sequence (map row_max cells) else Ok (map sum cells).
  Proof. unfold ELBND. destruct (negb _); [reflexivity|]. unfold bc. rewrite dw_len, Le, Nat.eqb_refl. reflexivity. Qed.

  (** *** C130.  function = "max": two roundings and one underflow *)
  Theorem C130_max : (0 < c)%nat -> exists mx, ELBND c w e "max" = Ok mx /\ List.length mx = N /\
    forall k, (k < N)%nat -> let r := nth k mx PrimFloat.zero in fin r /\ 0 <= val r /\
      exists M, is_max c (novelty w e k) M /\ Rabs (val r - M) <= 3 * uro * M + / 2 ^ 1075.
  Proof.
    intros Hc. rewrite elbnd_cells. cbn [String.eqb Ascii.eqb Bool.eqb orb negb].
    assert (LC : List.length cells = N) by (unfold cells; rewrite map2_len, dw_len; lia).
    destruct (sequence_map_ok row_max cells) as (mx & Hmx & Hl & Hn).
    { intros r Hr. apply (In_nth _ _ []) in Hr as (k & Hk & <-). destruct (cells_ok k ltac:(lia)) as (H1 & _). destruct (nth k cells []); [cbn in H1; lia|]. eexists. reflexivity. }
    exists mx. split; [exact Hmx|]. split; [lia|]. intros k Hk. cbv zeta. destruct (cells_ok k Hk) as (H1 & H2). specialize (Hn k [] PrimFloat.zero ltac:(lia)). set (row := nth k cells []) in *.
    destruct row as [|a l] eqn:ER; [cbn in H1; lia|]. injection Hn as Hn. rewrite <- Hn. 
    assert (Fr : Forall fin (a :: l)). { apply Forall_forall. intros b Hb. apply (In_nth _ _ PrimFloat.zero) in Hb as (i & Hi & <-). apply H2. lia. }
    destruct (vmax_val l a (Forall_inv Fr) (Forall_inv_tail Fr)) as (F & IN & GA & GL). set (r := vmax a l) in *.
    assert (IN' : In r (a :: l)) by (destruct IN as [-> |IN]; [left; reflexivity|right; exact IN]). apply (In_nth _ _ PrimFloat.zero) in IN' as (i & Hi & Ei).
    assert (GE : forall j, (j < c)%nat -> val (nth j (a :: l) PrimFloat.zero) <= val r). { intros j Hj. destruct j as [|j]; [exact GA|]. cbn [nth]. apply GL, nth_In. cbn in H1. lia. }
    rewrite H1 in Hi. destruct (H2 i Hi) as (_ & (P0 & _) & EB). rewrite Ei in P0, EB. split; [exact F|]. split; [exact P0|].
    assert (MX : exists M, is_max c (novelty w e k) M). { clear - Hc. induction c as [|m IH]; [lia|]. destruct m as [|m]; [exists (novelty w e k 0); split; [exists 0%nat; auto|intros j Hj; replace j with 0%nat by lia; lra]|].
      destruct (IH ltac:(lia)) as (M & (j & Hj & EM) & HM). destruct (Rle_dec (novelty w e k (S m)) M) as [L|G].
      - exists M. split; [exists j; auto|]. intros t Ht. destruct (Nat.eq_dec t (S m)) as [-> |]; [exact L|apply HM; lia].
      - exists (novelty w e k (S m)). split; [exists (S m); auto|]. intros t Ht. destruct (Nat.eq_dec t (S m)) as [-> |]; [lra|]. specialize (HM t ltac:(lia)). lra. }
    destruct MX as (M & (j & Hj & EM) & HM). exists M. split; [split; [exists j; auto|exact HM]|]. fold eta. pose proof uro_pos as Hu. assert (N0 : 0 <= novelty w e k i) by (unfold novelty; destruct (_ <? _)%nat; [apply Rabs_pos|lra]).
    specialize (HM i Hi). destruct (H2 j Hj) as (_ & _ & EJ). specialize (GE j Hj). rewrite <- EM in EJ. apply Rabs_le_inv in EB, EJ. apply Rabs_le. assert (3 * uro * novelty w e k i <= 3 * uro * M) by (apply Rmult_le_compat_l; lra). lra.
  Qed.

  (** function = "sum", in whatever order numpy adds *)
  Theorem C130_sum : (Z.of_nat c <= 2 ^ 40)%Z -> exists sm, ELBND c w e "sum" = Ok sm /\ List.length sm = N /\
    forall k, (k < N)%nat -> let r := nth k sm PrimFloat.zero in let S := sumn c (novelty w e k) in fin r /\ 0 <= val r /\
      Rabs (val r - S) <= (4 * INR c + 3) * uro * S + 4 * INR c * / 2 ^ 1075 * (1 + INR c * uro).
  Proof.
    intros Hn. rewrite elbnd_cells. cbn [String.eqb Ascii.eqb Bool.eqb orb negb].
    assert (LC : List.length cells = N) by (unfold cells; rewrite map2_len, dw_len; lia).
    exists (map sum cells). split; [reflexivity|]. split; [rewrite map_length; exact LC|]. intros k Hk. cbv zeta. rewrite (map_nth_lt _ _ _ ([] : fvec)) by lia.
    destruct (cells_ok k Hk) as (H1 & H2). set (row := nth k cells []) in *. set (S := sumn c (novelty w e k)). fold eta. pose proof uro_pos as Hu. pose proof eta_pos as He.
    pose proof (sums_evaluates _ _ (sum_ok row)) as EV.
    assert (PS : forall l : fvec, prod_sum (map (fun a => (a, PrimFloat.one)) l) = sumn (List.length l) (fun i => val (nth i l PrimFloat.zero))).
    { induction l as [|a l IH]; [reflexivity|]. cbn [map List.length]. rewrite sumn_S_l. cbn [nth]. rewrite <- IH. change (val a * val PrimFloat.one + prod_sum (map (fun a => (a, PrimFloat.one)) l) = val a + prod_sum (map (fun a => (a, PrimFloat.one)) l)). rewrite one_val. ring. }
    assert (PA : forall l : fvec, (forall i, (i < List.length l)%nat -> 0 <= val (nth i l PrimFloat.zero)) -> prod_abs (map (fun a => (a, PrimFloat.one)) l) = prod_sum (map (fun a => (a, PrimFloat.one)) l)).
    { induction l as [|a l IH]; [reflexivity|]. intros Hp. cbn [map]. change (Rabs (val a * val PrimFloat.one) + prod_abs (map (fun a => (a, PrimFloat.one)) l) = val a * val PrimFloat.one + prod_sum (map (fun a => (a, PrimFloat.one)) l)).
      rewrite IH, one_val, Rmult_1_r by (intros i Hi; apply (Hp (Datatypes.S i)); cbn; lia). rewrite Rabs_pos_eq; [reflexivity|]. apply (Hp 0%nat). cbn. lia. }
    set (T := prod_sum (map (fun a => (a, PrimFloat.one)) row)). assert (ET : T = sumn c (fun i => val (nth i row PrimFloat.zero))) by (unfold T; rewrite PS, H1; reflexivity).
    assert (EA : prod_abs (map (fun a => (a, PrimFloat.one)) row) = T) by (apply PA; rewrite H1; intros i Hi; apply (H2 i Hi)).
    assert (T0 : 0 <= T) by (rewrite ET; apply sumn_nonneg; intros i Hi; apply (H2 i Hi)).
    assert (TB : T <= INR c * 2 ^ 803). { rewrite ET. rewrite <- (sumn_const c). apply sumn_le. intros i Hi. apply (H2 i Hi). }
    assert (C40 : INR c <= 2 ^ 40). { rewrite INR_IZR_INZ. replace (2 ^ 40) with (IZR (2 ^ 40)) by (symmetry; exact (pow_IZR 2 40)). apply IZR_le. exact Hn. }
    assert (FD : fin (sum row)).
    { apply (evaluates_fin _ _ EV).
      - intros p Hp. apply in_map_iff in Hp as (a & <- & Ha). cbn [fst snd]. apply (In_nth _ _ PrimFloat.zero) in Ha as (i & Hi & <-). split; [apply H2; lia|exact I].
      - rewrite map_length, H1. apply Z.le_trans with (2 ^ 40)%Z; [exact Hn|discriminate].
      - rewrite EA. apply Rle_trans with (2 ^ 40 * 2 ^ 803); [eapply Rle_trans; [exact TB|apply Rmult_le_compat_r; [apply pow_le; lra|exact C40]]|]. rewrite <- pow_add. apply Rle_pow; [lra|leb]. }
    destruct (evaluates_err _ _ EV FD) as (_ & EB). rewrite EA, map_length, H1 in EB. fold T in EB.
    split; [exact FD|]. split.
    - apply (ev_nonneg _ _ EV); [|exact FD]. apply Forall_forall. intros p Hp. apply in_map_iff in Hp as (a & <- & Ha). cbn [fst snd]. apply (In_nth _ _ PrimFloat.zero) in Ha as (i & Hi & <-). rewrite one_val, Rmult_1_r. apply H2. lia.
    - pose proof (dot_slack_small c T ltac:(apply Z.le_trans with (2 ^ 40)%Z; [exact Hn|discriminate]) T0) as DS.
      assert (TS : Rabs (T - S) <= 3 * uro * S + INR c * eta).
      { rewrite ET. unfold S. clear - H2. induction c as [|m IH]; [cbn; rewrite Rminus_0_r, Rabs_R0; lra|]. cbn [sumn]. rewrite S_INR.
        destruct (H2 m ltac:(lia)) as (_ & _ & Hm). specialize (IH ltac:(intros; apply H2; lia)). set (f := sumn m (fun i => val (nth i row PrimFloat.zero))) in *. set (g := sumn m (novelty w e k)) in *. set (p := val (nth m row PrimFloat.zero)) in *. set (q := novelty w e k m) in *.
        replace (f + p - (g + q)) with ((f - g) + (p - q)) by ring. eapply Rle_trans; [apply Rabs_triang|]. lra. }
      assert (S0 : 0 <= S) by (apply sumn_nonneg; intros i Hi; unfold novelty; destruct (_ <? _)%nat; [apply Rabs_pos|lra]).
      pose proof (pos_INR c) as C0. set (n := INR c) in *.
      assert (U1 : 3 * uro <= 1). { pose proof uro_small as U. assert (/ 2 ^ 50 <= / 3); [apply Rinv_le_contravar; [lra|]|lra]. replace 3 with (4 - 1) by lra. assert (2 ^ 2 <= 2 ^ 50) by (apply Rle_pow; [lra|leb]). lra. }
      assert (TB2 : T <= 2 * S + n * eta) by (apply Rabs_le_inv in TS; assert (3 * uro * S <= 1 * S) by (apply Rmult_le_compat_r; lra); lra).
      replace (val (sum row) - S) with ((val (sum row) - T) + (T - S)) by ring. eapply Rle_trans; [apply Rabs_triang|].
      assert (D1 : uro * T <= uro * (2 * S + n * eta)) by (apply Rmult_le_compat_l; lra).
      assert (D2 : 2 * n * (uro * T + eta) <= 2 * n * (uro * (2 * S + n * eta) + eta)) by (apply Rmult_le_compat_l; lra).
      assert (NE : 0 <= n * eta) by (apply Rmult_le_pos; lra). assert (NNE : 0 <= n * eta * (n * uro)) by (apply Rmult_le_pos; [exact NE|apply Rmult_le_pos; lra]). lra.
  Qed.
  End W.
End C130.

(** *** Three samples, two weights, summation from the left: the data meet the hypotheses, and both functions return non-zero values. *)
Example C130_hypotheses : let w := [[PrimFloat.one; tenth]; [tenth; PrimFloat.zero]; [PrimFloat.two; PrimFloat.one]] in let e := [PrimFloat.one; tenth; PrimFloat.two] in
  (forall l, sums l (plain_sum l)) /\ List.length w = 3%nat /\ Forall (fun r => List.length r = 2%nat) w /\ Forall sane w /\ List.length e = 3%nat /\ sane e /\ (Z.of_nat 2 <= 2 ^ 40)%Z /\
  (exists r, @ELBND _ round_num 2 w e "max" = Ok r /\ val (nth 1 r PrimFloat.zero) <> 0) /\ (exists r, @ELBND _ round_num 2 w e "sum" = Ok r /\ val (nth 0 r PrimFloat.zero) <> 0).
Proof.
  cbv zeta. split; [intros l; exact (fold_sums l _ _ [] sum_zero eq_refl)|]. split; [reflexivity|]. split; [repeat constructor|].
  assert (P400 : 1 * 2 <= 2 ^ 400) by (apply Rle_trans with (2 ^ 1); [lra|apply Rle_pow; [lra|leb]]).
  assert (B : forall a, finb a = true -> (Qle_bool (Qminus 0 2) (valQ a) && Qle_bool (valQ a) 2 = true)%bool -> fin a /\ Rabs (val a) <= 2 ^ 400).
  { intros a H1 H2. split; [apply finb_ok; exact H1|]. rewrite val_Q. apply andb_prop in H2 as (H2 & H3). apply Qle_bool_iff in H2, H3. apply Qle_Rle in H2, H3.
    assert (Q2R 2 = 2) by (unfold Q2R; cbn; lra). assert (Q2R (0 - 2) = -2) by (unfold Q2R; cbn; lra). apply Rabs_le. lra. }
  assert (H0 : Q2R 0 = 0) by (unfold Q2R; cbn; lra).
  split; [repeat (constructor; [repeat (constructor; [apply B; vm_compute; reflexivity|]); constructor|]); constructor|]. split; [reflexivity|].
  split; [repeat (constructor; [apply B; vm_compute; reflexivity|]); constructor|]. split; [vm_compute; discriminate|].
  split; (eexists; split; [vm_compute; reflexivity|]; rewrite val_Q; intros H; rewrite <- H0 in H; apply eqR_Qeq in H; revert H; vm_compute; discriminate).
Qed.
