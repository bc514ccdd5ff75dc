(** C86: what NetworkMLP(...) builds, for all constructor arguments (exact real arithmetic; the random draws are arbitrary). *)
From Coq Require Import Reals Lra QArith Qreals.
From Verif Require Import Py Num Numpy Spec RVec RFilter Mlp PropsMLP.
Open Scope R_scope.

(** ** Specification *)
(** standard deviation of the initial weights of a node with k inputs, and its learning rate with mu = "auto" *)
Definition scale (k : nat) : R := / sqrt (INR k).
(** number of inputs of hidden layer i *)
Definition inputs_of (n_input : nat) (sizes : list nat) (i : nat) : nat := match i with O => n_input | S j => nth j sizes O end.
Definition learning_rate (mu : muarg R) (k : nat) : R := match mu with MuNum a => a | _ => scale k end.

Section S.
  Variable solve : list rvec -> list rvec -> option (list rvec).
  #[local] Hint Extern 0 (Num R) => exact (RNum solve) : typeclass_instances.

  Lemma inv_sqrt_0 : inv_sqrt (T := R) 0 = Err ZeroDivisionError.
  Proof. reflexivity. Qed.
  Lemma inv_sqrt_S k : k <> 0%nat -> inv_sqrt k = Ok (scale k).
  Proof.
    intros Hk. unfold inv_sqrt. destruct (Nat.eqb_spec k 0); [contradiction|]. f_equal.
    assert (Hp : 0 < INR k) by (apply lt_0_INR; lia).
    change (Rpowf (IZR (Z.of_nat k)) (Q2R (-1 # 2)) = scale k). rewrite <- INR_IZR_INZ. unfold Rpowf. destruct (Req_EM_T (INR k) 0); [lra|].
    unfold scale. rewrite <- Rpower_sqrt by exact Hp. rewrite <- Rpower_Ropp. f_equal. unfold Q2R. cbn. lra.
  Qed.

  Lemma new_layers_ok rng f mu : forall sizes i k, k <> 0%nat -> ~ In 0%nat (removelast sizes) ->
    exists ls, new_layers rng i sizes k f mu = Ok ls /\ length ls = length sizes /\
      forall j l, (j < length sizes)%nat -> nth_error ls j = Some l ->
        let inp := inputs_of k sizes j in
        l = mkLayer (learning_rate mu inp) inp (rng (i + j)%nat (scale inp) (nth j sizes 0%nat) (inp + 1)%nat) (ones (inp + 1)) (zeros (inp + 1)) f.
  Proof.
    induction sizes as [|s sizes IH]; intros i k Hk Hz; cbn [new_layers].
    - exists []. split; [reflexivity|]. split; [reflexivity|]. intros j l Hj; cbn in Hj; lia.
    - unfold new_layer. rewrite inv_sqrt_S by exact Hk. cbn [rbind].
      destruct sizes as [|s2 sizes].
      + cbn [new_layers rmap]. eexists. split; [reflexivity|]. split; [reflexivity|]. intros [|j] l Hj E; [|cbn in Hj; lia].
        cbn in E. injection E as <-. cbn [inputs_of nth]. rewrite Nat.add_0_r. destruct mu; reflexivity.
      + destruct (IH (S i) s) as (ls & E & Hl & HL).
        { intros ->. apply Hz. left; reflexivity. } { intros H. apply Hz. right; exact H. }
        rewrite E. cbn [rmap]. eexists. split; [reflexivity|]. split; [cbn [length] in *; lia|].
        intros [|j] l Hj E1.
        * cbn in E1. injection E1 as <-. cbn [inputs_of nth]. rewrite Nat.add_0_r. destruct mu; reflexivity.
        * cbn [nth_error] in E1. rewrite (HL j l ltac:(cbn [length] in *; lia) E1). cbn zeta.
          replace (inputs_of s (s2 :: sizes) j) with (inputs_of k (s :: s2 :: sizes) (S j)) by (destruct j; reflexivity).
          replace (S i + j)%nat with (i + S j)%nat by lia. reflexivity.
  Qed.
  Lemma new_layers_zero rng f (mu : muarg R) : forall sizes i k, sizes <> [] -> k = 0%nat \/ In 0%nat (removelast sizes) ->
    new_layers rng i sizes k f mu = Err ZeroDivisionError.
  Proof.
    induction sizes as [|s sizes IH]; intros i k Hne Hz; [contradiction|]. cbn [new_layers]. unfold new_layer.
    destruct (Nat.eq_dec k 0) as [->|Hk]; [reflexivity|]. rewrite inv_sqrt_S by exact Hk. cbn [rbind].
    destruct Hz as [Hz|Hz]; [contradiction|]. destruct sizes as [|s2 sizes]; [contradiction|].
    rewrite IH; [reflexivity|discriminate|]. destruct Hz as [Hz|Hz]; [left; congruence|right; exact Hz].
  Qed.

  (** *** Which arguments are rejected, and with what *)
  Theorem C86_rejected : forall rng1 rng sizes n_input outputs f (mu : muarg R),
    (sizes = [] -> new_net rng1 rng sizes n_input outputs f mu = Err IndexError) /\
    (sizes <> [] -> last sizes 0%nat = 0%nat -> new_net rng1 rng sizes n_input outputs f mu = Err ZeroDivisionError) /\
    (sizes <> [] -> last sizes 0%nat <> 0%nat -> mu = MuBad -> new_net rng1 rng sizes n_input outputs f mu = Err ValueError) /\
    (sizes <> [] -> last sizes 0%nat <> 0%nat -> mu <> MuBad -> n_input = 0%nat \/ In 0%nat sizes ->
       new_net rng1 rng sizes n_input outputs f mu = Err ZeroDivisionError).
  Proof.
    intros rng1 rng sizes k o f mu. unfold new_net.
    split; [intros ->; reflexivity|].
    assert (HR : sizes <> [] -> exists r, rev sizes = last sizes 0%nat :: r).
    { intros Hne. destruct (rev sizes) as [|s r] eqn:Er; [exfalso; apply Hne; rewrite <- (rev_involutive sizes), Er; reflexivity|].
      exists r. rewrite (rev_last sizes s r 0%nat Er). reflexivity. }
    split; [|split].
    - intros Hne H0. destruct (HR Hne) as (r & ->). rewrite H0. reflexivity.
    - intros Hne H0 ->. destruct (HR Hne) as (r & ->). rewrite inv_sqrt_S by exact H0. reflexivity.
    - intros Hne H0 Hm Hz. destruct (HR Hne) as (r & ->). rewrite inv_sqrt_S by exact H0. cbn [rbind].
      assert (Hz' : k = 0%nat \/ In 0%nat (removelast sizes)).
      { destruct Hz as [Hz|Hz]; [left; exact Hz|right]. rewrite (app_removelast_last 0%nat Hne) in Hz. apply in_app_or in Hz as [Hz|[Hz|[]]]; [exact Hz|contradiction]. }
      destruct mu; [| |congruence]; cbn [rbind]; rewrite new_layers_zero by assumption; reflexivity.
  Qed.

  (** *** Everything else is accepted: the learning rates, the sizes and the spread of the initial weights *)
  Theorem C86_network : forall rng1 rng sizes n_input outputs f (mu : muarg R),
    sizes <> [] -> n_input <> 0%nat -> ~ In 0%nat sizes -> mu <> MuBad ->
    exists n, new_net rng1 rng sizes n_input outputs f mu = Ok n /\
      m_n n = n_input /\ m_outputs n = outputs /\ length (m_layers n) = length sizes /\
      let h := last sizes 0%nat in
      m_mu n = learning_rate mu h /\
      m_w n = (if Nat.eqb outputs 1 then W1 (rng1 (scale h) (h + 1)%nat) else W2 (rng 0%nat (scale h) outputs (h + 1)%nat)) /\
      (forall i l, (i < length sizes)%nat -> nth_error (m_layers n) i = Some l ->
         let k := inputs_of n_input sizes i in
         l_mu l = learning_rate mu k /\ l_n l = k /\ l_f l = f /\ l_w l = rng (S i) (scale k) (nth i sizes 0%nat) (k + 1)%nat) /\
      (* what a first update would use: all inputs are 1, all outputs 0 *)
      m_x n = repeat 1 (h + 1) /\ m_y n = VNum 0 /\
      (forall i l, (i < length sizes)%nat -> nth_error (m_layers n) i = Some l ->
         let k := inputs_of n_input sizes i in l_x l = repeat 1 (k + 1) /\ l_y l = repeat 0 (k + 1)).
  Proof.
    intros rng1 rng sizes k o f mu Hne Hk Hz Hm. unfold new_net.
    destruct (rev sizes) as [|s r] eqn:Er; [exfalso; apply Hne; rewrite <- (rev_involutive sizes), Er; reflexivity|].
    pose proof (rev_last sizes s r 0%nat Er) as Hs. rewrite Hs.
    assert (H0 : s <> 0%nat) by (intros ->; apply Hz; rewrite (in_rev sizes), Er; left; reflexivity).
    rewrite inv_sqrt_S by exact H0. cbn [rbind].
    assert (HM : match mu with MuAuto => Ok (scale s) | MuNum a => Ok a | MuBad => Err ValueError end = Ok (learning_rate mu s)) by (destruct mu; [reflexivity|reflexivity|congruence]).
    rewrite HM. cbn [rbind].
    destruct (new_layers_ok rng f mu sizes 1 k Hk) as (ls & E & Hl & HL).
    { intros H. apply Hz. rewrite (app_removelast_last 0%nat Hne). apply in_or_app. left; exact H. }
    rewrite E. cbn [rmap]. eexists. split; [reflexivity|]. cbn [m_n m_outputs m_layers m_mu m_w m_x m_y].
    split; [reflexivity|]. split; [reflexivity|]. split; [exact Hl|]. split; [reflexivity|]. split; [reflexivity|]. split; [|split; [reflexivity|split; [reflexivity|]]].
    - intros i l Hi Hn. rewrite (HL i l Hi Hn). repeat split.
    - intros i l Hi Hn. rewrite (HL i l Hi Hn). split; reflexivity.
  Qed.

  (** the automatic learning rates are between 0 and 1, and smaller for wider layers *)
  Theorem C86_auto_rates : forall k j, (0 < k <= j)%nat -> 0 < scale j <= scale k /\ scale k <= 1.
  Proof.
    assert (H1 : forall k, (0 < k)%nat -> 1 <= sqrt (INR k)).
    { intros k Hk. rewrite <- sqrt_1. apply sqrt_le_1_alt. change 1 with (INR 1). apply le_INR. lia. }
    intros k j (Hk & Hj). unfold scale. pose proof (H1 k Hk). pose proof (H1 j ltac:(lia)).
    split; [split|].
    - apply Rinv_0_lt_compat. lra.
    - apply Rinv_le_contravar; [lra|]. apply sqrt_le_1_alt. apply le_INR. exact Hj.
    - rewrite <- Rinv_1. apply Rinv_le_contravar; lra.
  Qed.

  Example C86_hypotheses : [5; 3]%nat <> [] /\ 4%nat <> 0%nat /\ ~ In 0%nat [5; 3]%nat /\ MuAuto <> MuBad (T := R) /\
    inputs_of 4 [5; 3]%nat 0 = 4%nat /\ inputs_of 4 [5; 3]%nat 1 = 5%nat /\ last [5; 3]%nat 0%nat = 3%nat /\ scale 4 = 1 / 2.
  Proof.
    repeat split; try discriminate.
    - intros [H|[H|[]]]; discriminate.
    - unfold scale. replace (INR 4) with (2 * 2) by (cbn; lra). rewrite sqrt_square by lra. lra.
  Qed.
End S.
