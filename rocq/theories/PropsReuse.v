(** C128: repeating each sample r times in a row (exact real arithmetic). *)
From Coq Require Import Reals Lra Psatz FunctionalExtensionality.
From Verif Require Import Py Num Numpy Filters Registry Spec StructProofs RunProofs Reach RVec RFilter Steps RMat PropsRun PropsRegistry PropsStability PropsAlgebra PropsAP PropsAPConverge PropsRLS PropsRLSRate PropsRecursion PropsSilence PropsDead.
Open Scope R_scope.

(** ** Specification *)
(** every element of the list r times in a row *)
Definition each {A} (r : nat) (l : list A) : list A := flat_map (fun a => repeat a r) l.
(** 1 + q + ... + q^(r-1) *)
Definition geom (q : R) (r : nat) : R := sumn r (fun m => q ^ m).
(** what one step of size mu on input x does to the error of its own sample: it becomes 1 - contraction times what it was *)
Definition contraction (c : kind) (mu eps s : R) : R := match c with KNLMS => mu / (eps + s) * s | _ => mu * s end.

Lemma geom_sum q r : (1 - q) * geom q r = 1 - q ^ r.
Proof. unfold geom. induction r as [|r IH]; cbn [sumn pow]; [ring|]. rewrite Rmult_plus_distr_l, IH. ring. Qed.

Lemma each_length {A} r (l : list A) : length (each r l) = (length l * r)%nat.
Proof. unfold each. induction l as [|a l IH]; [reflexivity|]. cbn [flat_map length]. rewrite app_length, repeat_length, IH. lia. Qed.
Lemma nth_repeat_in {A} (a dflt : A) r j : (j < r)%nat -> nth j (repeat a r) dflt = a.
Proof. revert j. induction r as [|r IH]; intros j Hj; [lia|]. destruct j; cbn [repeat nth]; [reflexivity|apply IH; lia]. Qed.
Lemma each_nth {A} r (l : list A) k j dflt : (k < length l)%nat -> (j < r)%nat -> nth (k * r + j) (each r l) dflt = nth k l dflt.
Proof.
  unfold each. revert k. induction l as [|a l IH]; intros k Hk Hj; [cbn in Hk; lia|]. cbn [flat_map]. destruct k as [|k].
  - cbn [Nat.mul Nat.add nth]. rewrite app_nth1 by (rewrite repeat_length; exact Hj). apply nth_repeat_in. exact Hj.
  - cbn [nth]. rewrite app_nth2; rewrite repeat_length; [|lia]. replace (S k * r + j - r)%nat with (k * r + j)%nat by lia. apply IH; [cbn in Hk; lia|exact Hj].
Qed.
Lemma each_rows n r (x : list rvec) : rows_of n x -> rows_of n (each r x).
Proof. unfold rows_of, each. intros H. induction H as [|a l Ha _ IH]; [constructor|]. cbn [flat_map]. apply Forall_app. split; [|exact IH]. apply Forall_forall. intros b Hb. apply repeat_spec in Hb. subst b. exact Ha. Qed.

Lemma sumn_blocks k r f : sumn (k * r) f = sumn k (fun i => sumn r (fun j => f (i * r + j)%nat)).
Proof. induction k as [|k IH]; [reflexivity|]. replace (S k * r)%nat with (k * r + r)%nat by lia. rewrite sumn_split, IH. reflexivity. Qed.
Lemma geom_rev q r : sumn r (fun j => q ^ (r - 1 - j)) = geom q r.
Proof.
  unfold geom. induction r as [|r IH]; [reflexivity|]. rewrite sumn_S_l. cbn [sumn]. rewrite <- IH. replace (S r - 1 - 0)%nat with r by lia. rewrite Rplus_comm. f_equal.
  apply sumn_ext. intros j Hj. f_equal. lia.
Qed.
Lemma geom_pos q r : 0 < q -> (0 < r)%nat -> 0 < geom q r.
Proof.
  intros Hq. unfold geom. induction r as [|r IH]; [lia|]. intros _. cbn [sumn]. pose proof (pow_lt q r Hq). destruct r as [|r]; [cbn [sumn] in *; lra|]. specialize (IH ltac:(lia)). lra.
Qed.

Section Block.
  Variables (n N r : nat) (a : nat -> R) (d : nat -> R) (x : nat -> nat -> R) (D : nat -> R) (X : nat -> nat -> R) (y e : nat -> R) (W : nat -> nat -> R).
  Hypothesis HD : forall k j, (k < N)%nat -> (j < r)%nat -> D (k * r + j)%nat = d k.
  Hypothesis HX : forall k j i, (k < N)%nat -> (j < r)%nat -> X (k * r + j)%nat i = x k i.
  Hypothesis H1 : forall t, (t < N * r)%nat -> e t = D t - y t.
  Hypothesis H2 : forall t, (t < N * r)%nat -> y t = dotn n (W t) (X t).
  Hypothesis HM : forall k j i, (k < N)%nat -> (j < r)%nat -> (i < n)%nat -> W (S (k * r + j)) i = W (k * r + j)%nat i + a k * e (k * r + j)%nat * x k i.
  Let q k := 1 - a k * dotn n (x k) (x k).

  Lemma at_most k j : (k < N)%nat -> (j < r)%nat -> (k * r + j < N * r)%nat.
  Proof. intros Hk Hj. nia. Qed.
  Lemma err_dot k j : (k < N)%nat -> (j < r)%nat -> e (k * r + j)%nat = d k - dotn n (W (k * r + j)%nat) (x k).
  Proof.
    intros Hk Hj. rewrite H1, H2, HD by (assumption || apply at_most; assumption). f_equal. unfold dotn. apply sumn_ext. intros i Hi. rewrite HX by assumption. reflexivity.
  Qed.
  Lemma in_block k : (k < N)%nat -> forall j, (j <= r)%nat -> forall i, (i < n)%nat ->
    W (k * r + j)%nat i = W (k * r)%nat i + a k * geom (q k) j * (d k - dotn n (W (k * r)%nat) (x k)) * x k i.
  Proof.
    intros Hk. set (E0 := d k - dotn n (W (k * r)%nat) (x k)). induction j as [|j IH]; intros Hj i Hi; [unfold geom; cbn [sumn]; rewrite Nat.add_0_r; ring|].
    assert (ER : e (k * r + j)%nat = q k ^ j * E0).
    { rewrite err_dot by (assumption || lia).
      replace (dotn n (W (k * r + j)%nat) (x k)) with (dotn n (W (k * r)%nat) (x k) + a k * geom (q k) j * E0 * dotn n (x k) (x k)).
      - assert (G : a k * dotn n (x k) (x k) * geom (q k) j = 1 - q k ^ j) by (rewrite <- geom_sum; unfold q; ring).
        replace (q k ^ j) with (1 - a k * dotn n (x k) (x k) * geom (q k) j) by lra. fold E0. unfold E0. ring.
      - unfold dotn. rewrite <- sumn_scal, <- sumn_plus. apply sumn_ext. intros i0 Hi0. rewrite IH by (assumption || lia). ring. }
    rewrite Nat.add_succ_r, HM, IH, ER by (assumption || lia). unfold geom. cbn [sumn]. ring.
  Qed.
  Lemma err_block k j : (k < N)%nat -> (j < r)%nat -> e (k * r + j)%nat = q k ^ j * (d k - dotn n (W (k * r)%nat) (x k)).
  Proof.
    intros Hk Hj. rewrite err_dot by assumption. set (E0 := d k - dotn n (W (k * r)%nat) (x k)).
    replace (dotn n (W (k * r + j)%nat) (x k)) with (dotn n (W (k * r)%nat) (x k) + a k * geom (q k) j * E0 * dotn n (x k) (x k)).
    - assert (G : a k * dotn n (x k) (x k) * geom (q k) j = 1 - q k ^ j) by (rewrite <- geom_sum; unfold q; ring).
      replace (q k ^ j) with (1 - a k * dotn n (x k) (x k) * geom (q k) j) by lra. unfold E0. ring.
    - unfold dotn. rewrite <- sumn_scal, <- sumn_plus. apply sumn_ext. intros i0 Hi0. rewrite (in_block k Hk j) by (assumption || lia). unfold E0, dotn. ring.
  Qed.
End Block.

Section Program.
  Variable solve : list rvec -> list rvec -> option (list rvec).
  #[local] Hint Extern 0 (Num R) => exact (RNum solve) : typeclass_instances.
  Notation obj := (obj R).

  (** the common part: LMS or NLMS on data in which each sample occurs r times in a row *)
  Lemma block_run rng c (kw : kwargs R) n (o o' : obj) mu eps r d x y e w :
    c = KLMS \/ c = KNLMS -> rng_ok rng -> sane_kw kw -> kw_n kw = Some (Z.of_nat n) -> kw_mu kw = Some mu -> par (kw_eps kw) (1 / 1000) = eps -> new_filter rng c kw = Ok o ->
    rows_of n x -> length d = length x -> run (each r d) (each r x) o = (o', Ok (y, e, w)) ->
    nth 0 (w ++ [o_w o']) [] = o_w o /\
    forall k, (k < length x)%nat ->
      let xk i := nth i (nth k x []) 0 in let W t i := nth i (nth t (w ++ [o_w o']) []) 0 in let s := dotn n xk xk in
      let a := match c with KNLMS => mu / (eps + s) | _ => mu end in
      (forall j i, (j <= r)%nat -> (i < n)%nat -> W (k * r + j)%nat i = W (k * r)%nat i + a * geom (1 - a * s) j * (nth k d 0 - dotn n (W (k * r)%nat) xk) * xk i) /\
      (forall j, (j < r)%nat -> nth (k * r + j) e 0 = (1 - a * s) ^ j * (nth k d 0 - dotn n (W (k * r)%nat) xk)) /\
      ((0 < r)%nat -> nth (k * r) y 0 = dotn n (W (k * r)%nat) xk).
  Proof.
    intros Hc Hrng Hkw Hn Hmu He Ho Hx Ld HR.
    pose proof (each_rows n r x Hx) as Hx'.
    destruct (C65_run_follows_the_recursion solve rng c kw n o o' _ _ y e w Hrng Hkw Hn Ho ltac:(destruct Hc; subst; discriminate) ltac:(destruct Hc; subst; discriminate) Hx' HR) as (S1 & P). rewrite each_length in P.
    split; [exact S1|]. intros k Hk xk W s a.
    set (af := fun k => match c with KNLMS => mu / (eps + dotn n (fun i => nth i (nth k x []) 0) (fun i => nth i (nth k x []) 0)) | _ => mu end).
    set (D := fun t => nth t (each r d) 0) in *. set (X := fun t i => nth i (nth t (each r x) []) 0) in *.
    assert (HD : forall k j, (k < length x)%nat -> (j < r)%nat -> D (k * r + j)%nat = nth k d 0) by (intros k0 j Hk0 Hj; unfold D; apply each_nth; [congruence|exact Hj]).
    assert (HX : forall k j i, (k < length x)%nat -> (j < r)%nat -> X (k * r + j)%nat i = nth i (nth k x []) 0) by (intros k0 j i Hk0 Hj; unfold X; rewrite each_nth by assumption; reflexivity).
    assert (P3 : (forall t, (t < length x * r)%nat -> nth t e 0 = D t - nth t y 0) /\ (forall t, (t < length x * r)%nat -> nth t y 0 = dotn n (W t) (X t)) /\
      forall k j i, (k < length x)%nat -> (j < r)%nat -> (i < n)%nat -> W (S (k * r + j)) i = W (k * r + j)%nat i + af k * nth (k * r + j) e 0 * nth i (nth k x []) 0).
    { unfold published in P. cbv zeta in P. destruct Hc as [-> | ->]; destruct P as ((Q1 & Q2) & Q3).
      - split; [exact Q1|]. split; [exact Q2|]. intros k0 j i Hk0 Hj Hi. unfold W. rewrite Q3 by (assumption || nia). unfold af. cbn [rate]. rewrite Hmu. cbn [par]. rewrite HX by assumption. reflexivity.
      - split; [exact Q1|]. split; [exact Q2|]. intros k0 j i Hk0 Hj Hi. unfold W. rewrite Q3 by (assumption || nia). unfold af. cbn [rate]. rewrite Hmu, He. cbn [par]. rewrite HX by assumption.
        replace (dotn n (X (k0 * r + j)%nat) (X (k0 * r + j)%nat)) with (dotn n (fun i => nth i (nth k0 x []) 0) (fun i => nth i (nth k0 x []) 0)) by (unfold dotn; apply sumn_ext; intros; rewrite !HX by assumption; reflexivity). reflexivity. }
    destruct P3 as (Q1 & Q2 & Q3). split; [|split].
    - intros j i Hj Hi. exact (in_block n (length x) r af (fun k => nth k d 0) (fun k i => nth i (nth k x []) 0) D X (fun t => nth t y 0) (fun t => nth t e 0) W HD HX Q1 Q2 Q3 k Hk j Hj i Hi).
    - intros j Hj. exact (err_block n (length x) r af (fun k => nth k d 0) (fun k i => nth i (nth k x []) 0) D X (fun t => nth t y 0) (fun t => nth t e 0) W HD HX Q1 Q2 Q3 k j Hk Hj).
    - intros Hr. rewrite Q2 by nia. unfold dotn. apply sumn_ext. intros i Hi. pose proof (HX k 0%nat i Hk Hr) as E. rewrite Nat.add_0_r in E. rewrite E. reflexivity.
  Qed.

  (** *** C128.  What r passes over each sample do: the errors shrink geometrically, and the weights move as in one step with the rate
      mu (1 + q + ... + q^(r-1)) *)
  Theorem C128_LMS_NLMS : forall rng c (kw : kwargs R) n (o o' : obj) mu eps r d x y e w,
    c = KLMS \/ c = KNLMS -> rng_ok rng -> sane_kw kw -> kw_n kw = Some (Z.of_nat n) -> kw_mu kw = Some mu -> (c = KNLMS -> kw_eps kw = Some eps) -> new_filter rng c kw = Ok o ->
    rows_of n x -> length d = length x -> run (each r d) (each r x) o = (o', Ok (y, e, w)) ->
    forall k, (k < length x)%nat ->
      let xk := nth k x [] in let wt t := nth t (w ++ [o_w o']) [] in
      let q := 1 - contraction c mu eps (normsq xk) in
      let step := match c with KNLMS => mu / (eps + normsq xk) | _ => mu end in
      (forall j, (j < r)%nat -> nth (k * r + j) e 0 = q ^ j * (nth k d 0 - Rdot (wt (k * r)%nat) xk)) /\
      wt (S k * r)%nat = vadd (wt (k * r)%nat) (vsc (step * geom q r * (nth k d 0 - Rdot (wt (k * r)%nat) xk)) xk).
  Proof.
    intros rng c kw n o o' mu eps r d x y e w Hc Hrng Hkw Hn Hmu He Ho Hx Ld HR k Hk xk wt q step.
    pose proof (new_filter_wf rng c kw n o Hrng Hkw Hn Ho) as W1. pose proof (each_rows n r x Hx) as Hx'.
    set (ep := par (kw_eps kw) (1 / 1000)).
    destruct (block_run rng c kw n o o' mu ep r d x y e w Hc Hrng Hkw Hn Hmu eq_refl Ho Hx Ld HR) as (_ & B). specialize (B k Hk). cbv zeta in B. destruct B as (B1 & B2 & _).
    pose proof (nth_rows _ _ _ Hx Hk) as Lr. fold xk in Lr.
    assert (L1 : length (wt (k * r)%nat) = n) by (apply (rows_len solve n o o' _ _ y e w _ W1 Hx' HR); rewrite each_length; nia).
    assert (L2 : length (wt (S k * r)%nat) = n) by (apply (rows_len solve n o o' _ _ y e w _ W1 Hx' HR); rewrite each_length; nia).
    assert (HN : dotn n (fun i => nth i (nth k x []) 0) (fun i => nth i (nth k x []) 0) = normsq xk) by (unfold normsq; rewrite (Rdot_sumn n) by exact Lr; reflexivity).
    assert (HW : dotn n (fun i => nth i (nth (k * r) (w ++ [o_w o']) []) 0) (fun i => nth i (nth k x []) 0) = Rdot (wt (k * r)%nat) xk) by (rewrite (Rdot_sumn n) by assumption; reflexivity).
    rewrite HN, HW in *.
    assert (HS : match c with KNLMS => mu / (ep + normsq xk) | _ => mu end = step) by (unfold step, ep; destruct Hc as [-> | ->]; [reflexivity|rewrite (He eq_refl); reflexivity]).
    assert (HQ : 1 - step * normsq xk = q) by (unfold q, step, contraction; destruct Hc as [-> | ->]; reflexivity).
    rewrite HS, HQ in *. split; [exact B2|]. apply (nth_ext _ _ 0 0); [rewrite L2; symmetry; apply vadd_length; [exact L1|rewrite vsc_length; exact Lr]|].
    intros i Hi. rewrite nth_vadd, nth_vsc by (rewrite vsc_length; congruence). replace (S k * r)%nat with (k * r + r)%nat in * by lia. unfold wt at 1. rewrite B1 by (reflexivity || congruence). reflexivity.
  Qed.

  (** two filters, one fed with each sample r times, one fed once with another step, agree after every r-fold sample *)
  Lemma agree_blocks rng c (kw kw1 : kwargs R) n (o o' o1 o1' : obj) mu eps mu1 r d x y e w y1 e1 w1 :
    c = KLMS \/ c = KNLMS -> rng_ok rng -> sane_kw kw -> sane_kw kw1 -> kw_n kw = Some (Z.of_nat n) -> kw_n kw1 = Some (Z.of_nat n) ->
    kw_mu kw = Some mu -> kw_mu kw1 = Some mu1 -> (c = KNLMS -> kw_eps kw = Some eps) -> (c = KNLMS -> kw_eps kw1 = Some eps) ->
    new_filter rng c kw = Ok o -> new_filter rng c kw1 = Ok o1 -> o_w o1 = o_w o ->
    rows_of n x -> (0 < r)%nat ->
    (forall row, In row x -> mu1 = mu * geom (1 - contraction c mu eps (normsq row)) r) ->
    run (each r d) (each r x) o = (o', Ok (y, e, w)) -> run d x o1 = (o1', Ok (y1, e1, w1)) ->
    (forall k, (k < length x)%nat -> nth (k * r) y 0 = nth k y1 0 /\ nth (k * r) e 0 = nth k e1 0) /\
    (forall k, (k <= length x)%nat -> nth (k * r) (w ++ [o_w o']) [] = nth k (w1 ++ [o_w o1']) []).
  Proof.
    intros Hc Hrng Hkw Hkw1 Hn Hn1 Hmu Hmu1 He He1 Ho Ho1 HW Hx Hr Hg HR HR1.
    pose proof (new_filter_wf rng c kw n o Hrng Hkw Hn Ho) as Wf. pose proof (new_filter_wf rng c kw1 n o1 Hrng Hkw1 Hn1 Ho1) as Wf1. pose proof (each_rows n r x Hx) as Hx'.
    destruct (run_lengths solve n o1 o1' d x y1 e1 w1 Wf1 Hx HR1) as (Ld & _).
    set (ep := par (kw_eps kw) (1 / 1000)).
    assert (EP : c = KNLMS -> ep = eps) by (intros E; unfold ep; rewrite (He E); reflexivity).
    destruct (block_run rng c kw n o o' mu ep r d x y e w Hc Hrng Hkw Hn Hmu eq_refl Ho Hx Ld HR) as (B0 & B).
    destruct (C65_run_follows_the_recursion solve rng c kw1 n o1 o1' d x y1 e1 w1 Hrng Hkw1 Hn1 Ho1 ltac:(destruct Hc; subst; discriminate) ltac:(destruct Hc; subst; discriminate) Hx HR1) as (S1 & P1).
    set (W := fun k i => nth i (nth (k * r) (w ++ [o_w o']) []) 0).
    assert (HP : published c kw1 n (length x) (fun k => nth k d 0) (fun k i => nth i (nth k x []) 0) (fun k => nth (k * r) y 0) (fun k => nth (k * r) e 0) W).
    { assert (Lin : (forall k, (k < length x)%nat -> nth (k * r) e 0 = nth k d 0 - nth (k * r) y 0) /\ (forall k, (k < length x)%nat -> nth (k * r) y 0 = dotn n (W k) (fun i => nth i (nth k x []) 0))).
      { split; intros k Hk; specialize (B k Hk); cbv zeta in B; destruct B as (_ & B2 & B3); [|exact (B3 Hr)].
        specialize (B2 0%nat Hr). rewrite Nat.add_0_r in B2. rewrite B2, (B3 Hr). ring. }
      assert (Mv : forall k i, (k < length x)%nat -> (i < n)%nat -> let s := dotn n (fun i => nth i (nth k x []) 0) (fun i => nth i (nth k x []) 0) in
        W (S k) i = W k i + match c with KNLMS => mu1 / (eps + s) | _ => mu1 end * nth (k * r) e 0 * nth i (nth k x []) 0).
      { intros k i Hk Hi s. pose proof (B k Hk) as Bk. cbv zeta in Bk. destruct Bk as (B1 & B2 & _). fold s in B1, B2.
        specialize (B2 0%nat Hr). rewrite Nat.add_0_r in B2. cbn [pow] in B2. rewrite Rmult_1_l in B2. unfold W at 1. replace (S k * r)%nat with (k * r + r)%nat by lia. rewrite B1 by (lia || assumption). rewrite <- B2. fold (W k i).
        specialize (Hg (nth k x []) (nth_In _ _ Hk)). pose proof (nth_rows _ _ _ Hx Hk) as Lr. unfold normsq in Hg. rewrite (Rdot_sumn n) in Hg by exact Lr. fold (dotn n (fun i => nth i (nth k x []) 0) (fun i => nth i (nth k x []) 0)) in Hg. fold s in Hg.
        rewrite Hg. unfold contraction. destruct Hc as [-> | ->]; [ring|]. rewrite (EP eq_refl). unfold Rdiv. ring. }
      unfold published. cbv zeta in Mv |- *. destruct Hc as [-> | ->]; (split; [exact Lin|]); intros k i Hk Hi; rewrite Mv by assumption; cbn [rate]; rewrite Hmu1, ?(He1 eq_refl); reflexivity. }
    destruct (C65_recursion_determines c kw1 n (length x) _ _ _ _ _ _ _ _ HP P1) as (T1 & T2).
    { intros i Hi. unfold W. cbn [Nat.mul]. rewrite B0, S1, HW by exact Hi. reflexivity. }
    split; [exact T1|]. intros k Hk.
    pose proof (rows_len solve n o o' _ _ y e w (k * r) Wf Hx' HR ltac:(rewrite each_length; nia)) as L2. pose proof (rows_len solve n o1 o1' _ _ y1 e1 w1 k Wf1 Hx HR1 Hk) as L1.
    apply (nth_ext _ _ 0 0); [congruence|]. intros i Hi. apply T2; [exact Hk|congruence].
  Qed.

  (** *** NLMS with eps = 0: r passes over each sample are one pass with the step 1 - (1 - mu)^r *)
  Theorem C128_NLMS : forall rng (kw kw1 : kwargs R) n (o o' o1 o1' : obj) mu r d x y e w y1 e1 w1,
    rng_ok rng -> sane_kw kw -> sane_kw kw1 -> kw_n kw = Some (Z.of_nat n) -> kw_n kw1 = Some (Z.of_nat n) ->
    kw_mu kw = Some mu -> kw_mu kw1 = Some (1 - (1 - mu) ^ r) -> kw_eps kw = Some 0 -> kw_eps kw1 = Some 0 ->
    new_filter rng KNLMS kw = Ok o -> new_filter rng KNLMS kw1 = Ok o1 -> o_w o1 = o_w o ->
    rows_of n x -> (forall row, In row x -> normsq row <> 0) -> (0 < r)%nat ->
    run (each r d) (each r x) o = (o', Ok (y, e, w)) -> run d x o1 = (o1', Ok (y1, e1, w1)) ->
    (forall k, (k < length x)%nat -> nth (k * r) y 0 = nth k y1 0 /\ nth (k * r) e 0 = nth k e1 0) /\
    (forall k, (k <= length x)%nat -> nth (k * r) (w ++ [o_w o']) [] = nth k (w1 ++ [o_w o1']) []).
  Proof.
    intros rng kw kw1 n o o' o1 o1' mu r d x y e w y1 e1 w1 Hrng Hkw Hkw1 Hn Hn1 Hmu Hmu1 He He1 Ho Ho1 HW Hx Hnz Hr.
    apply (agree_blocks rng KNLMS kw kw1 n o o' o1 o1' mu 0 (1 - (1 - mu) ^ r) r d x); auto.
    intros row Hrow. specialize (Hnz row Hrow). unfold contraction. rewrite <- geom_sum. replace (mu / (0 + normsq row) * normsq row) with mu by (field; exact Hnz). ring.
  Qed.

  (** *** LMS and NLMS on inputs of constant length: one pass with the step mu (1 + q + ... + q^(r-1)) *)
  Theorem C128_constant_length : forall rng c (kw kw1 : kwargs R) n (o o' o1 o1' : obj) mu eps s r d x y e w y1 e1 w1,
    c = KLMS \/ c = KNLMS -> rng_ok rng -> sane_kw kw -> sane_kw kw1 -> kw_n kw = Some (Z.of_nat n) -> kw_n kw1 = Some (Z.of_nat n) ->
    kw_mu kw = Some mu -> kw_mu kw1 = Some (mu * geom (1 - contraction c mu eps s) r) -> (c = KNLMS -> kw_eps kw = Some eps) -> (c = KNLMS -> kw_eps kw1 = Some eps) ->
    new_filter rng c kw = Ok o -> new_filter rng c kw1 = Ok o1 -> o_w o1 = o_w o ->
    rows_of n x -> (forall row, In row x -> normsq row = s) -> (0 < r)%nat ->
    run (each r d) (each r x) o = (o', Ok (y, e, w)) -> run d x o1 = (o1', Ok (y1, e1, w1)) ->
    (forall k, (k < length x)%nat -> nth (k * r) y 0 = nth k y1 0 /\ nth (k * r) e 0 = nth k e1 0) /\
    (forall k, (k <= length x)%nat -> nth (k * r) (w ++ [o_w o']) [] = nth k (w1 ++ [o_w o1']) []).
  Proof.
    intros rng c kw kw1 n o o' o1 o1' mu eps s r d x y e w y1 e1 w1 Hc Hrng Hkw Hkw1 Hn Hn1 Hmu Hmu1 He He1 Ho Ho1 HW Hx Hs Hr.
    apply (agree_blocks rng c kw kw1 n o o' o1 o1' mu eps (mu * geom (1 - contraction c mu eps s) r) r d x y e w y1 e1 w1); auto.
    intros row Hrow. rewrite (Hs row Hrow). reflexivity.
  Qed.

  (** *** RLS: one pass with the forgetting factor mu^r and eps divided by 1 + mu + ... + mu^(r-1) *)
  Theorem C128_RLS : forall rng (kw kw1 : kwargs R) n (o o' o1 o1' : obj) eps R0 R1 r d x y e w y1 e1 w1,
    rng_ok rng -> sane_kw kw -> sane_kw kw1 -> kw_n kw = Some (Z.of_nat n) -> kw_n kw1 = Some (Z.of_nat n) ->
    new_filter rng KRLS kw = Ok o -> new_filter rng KRLS kw1 = Ok o1 -> o_w o1 = o_w o -> 0 < o_mu o -> 0 < eps -> o_ext o = XRLS eps R0 ->
    o_mu o1 = o_mu o ^ r -> o_ext o1 = XRLS (eps / geom (o_mu o) r) R1 ->
    rows_of n x -> (0 < r)%nat ->
    run (each r d) (each r x) o = (o', Ok (y, e, w)) -> run d x o1 = (o1', Ok (y1, e1, w1)) ->
    (forall k, (k <= length x)%nat -> nth (k * r) (w ++ [o_w o']) [] = nth k (w1 ++ [o_w o1']) []) /\
    (forall k, (k < length x)%nat -> nth (k * r) y 0 = nth k y1 0 /\ nth (k * r) e 0 = nth k e1 0).
  Proof.
    intros rng kw kw1 n o o' o1 o1' eps R0 R1 r d x y e w y1 e1 w1 Hrng Hkw Hkw1 Hn Hn1 Ho Ho1 HW Hmu Heps HE Hmu1 HE1 Hx Hr HR HR1.
    pose proof (new_filter_wf rng KRLS kw n o Hrng Hkw Hn Ho) as Wf. pose proof (new_filter_wf rng KRLS kw1 n o1 Hrng Hkw1 Hn1 Ho1) as Wf1. pose proof (each_rows n r x Hx) as Hx'.
    destruct (run_lengths solve n o1 o1' d x y1 e1 w1 Wf1 Hx HR1) as (Ld & _).
    pose proof (geom_pos (o_mu o) r Hmu Hr) as Hg. set (g := geom (o_mu o) r) in *.
    assert (Hmu' : 0 < o_mu o1) by (rewrite Hmu1; apply pow_lt; exact Hmu).
    assert (Heps1 : 0 < eps / g) by (apply Rdiv_lt_0_compat; assumption).
    assert (EC : forall k v, (k <= length x)%nat -> ls_cost (o_mu o) eps (o_w o) (each r d) (each r x) (k * r) v = g * ls_cost (o_mu o1) (eps / g) (o_w o1) d x k v).
    { intros k v Hk. unfold ls_cost. rewrite HW, Hmu1, sumn_blocks, Rmult_plus_distr_l. f_equal.
      - rewrite <- sumn_scal. apply sumn_ext. intros i Hi.
        rewrite (sumn_ext r _ (fun j => (o_mu o ^ r) ^ (k - 1 - i) * (nth i d 0 - Rdot v (nth i x [])) ^ 2 * o_mu o ^ (r - 1 - j))).
        + rewrite sumn_scal, geom_rev. fold g. ring.
        + intros j Hj. rewrite !each_nth by (assumption || lia). rewrite <- pow_mult.
          replace (k * r - 1 - (i * r + j))%nat with (r * (k - 1 - i) + (r - 1 - j))%nat by nia. rewrite pow_add. ring.
      - rewrite <- pow_mult. replace (r * k)%nat with (k * r)%nat by lia. field. lra. }
    assert (HWk : forall k, (k <= length x)%nat -> nth (k * r) (w ++ [o_w o']) [] = nth k (w1 ++ [o_w o1']) []).
    { intros k Hk.
      destruct (C21_least_squares solve rng kw n o o' eps R0 _ _ y e w Hrng Hkw Hn Ho HE Heps Hmu Hx' HR (k * r) ltac:(rewrite each_length; nia)) as (La & HA).
      destruct (C21_least_squares solve rng kw1 n o1 o1' _ R1 _ _ y1 e1 w1 Hrng Hkw1 Hn1 Ho1 HE1 Heps1 Hmu' Hx HR1 k Hk) as (Lb & HB).
      unfold wrow in *. destruct (list_eq_dec Req_EM_T (nth (k * r) (w ++ [o_w o']) []) (nth k (w1 ++ [o_w o1']) [])) as [E|NE]; [exact E|exfalso].
      specialize (HA _ Lb ltac:(congruence)). specialize (HB _ La NE). rewrite !EC in HA by exact Hk. apply Rmult_lt_reg_l in HA; lra. }
    split; [exact HWk|]. intros k Hk.
    destruct (C65_run_follows_the_recursion solve rng KRLS kw n o o' _ _ y e w Hrng Hkw Hn Ho ltac:(discriminate) ltac:(discriminate) Hx' HR) as (_ & P). rewrite each_length in P.
    destruct (C65_run_follows_the_recursion solve rng KRLS kw1 n o1 o1' d x y1 e1 w1 Hrng Hkw1 Hn1 Ho1 ltac:(discriminate) ltac:(discriminate) Hx HR1) as (_ & P1).
    unfold published in P, P1. cbv zeta in P, P1. destruct P as ((Q1 & Q2) & _). destruct P1 as ((Q1' & Q2') & _).
    assert (HK : (k * r < length x * r)%nat) by nia. pose proof (each_nth r x k 0 [] Hk Hr) as EX. pose proof (each_nth r d k 0 0 ltac:(congruence) Hr) as ED. rewrite Nat.add_0_r in EX, ED.
    assert (EY : nth (k * r) y 0 = nth k y1 0) by (rewrite Q2, Q2', EX, HWk by (assumption || lia); reflexivity).
    split; [exact EY|]. rewrite Q1, Q1', ED, EY by assumption. reflexivity.
  Qed.
  (** *** inputs of different lengths: LMS has no such step in general *)
  Theorem C128_LMS_no_step : forall rng (kw : R -> kwargs R) (o o1 : R -> obj),
    rng_ok rng -> (forall mu, kw mu = mkKw (Some 1%Z) (Some mu) (Some (WVec [0])) None None None None None None None None false) ->
    (forall mu, new_filter rng KLMS (kw mu) = Ok (o mu)) ->
    forall mu1 o' y e w o1' y1 e1 w1,
      run (each 2 [1; 3]) (each 2 [[1]; [2]]) (o (1 / 4)) = (o', Ok (y, e, w)) ->
      run [1; 3] [[1]; [2]] (o mu1) = (o1', Ok (y1, e1, w1)) ->
      ~ (forall k, (k <= 2)%nat -> nth (k * 2) (w ++ [o_w o']) [] = nth k (w1 ++ [o_w o1']) []).
  Proof.
    intros rng kw o o1 Hrng Hkw Ho mu1 o' y e w o1' y1 e1 w1 HR HR1 EQ.
    assert (HS : forall mu, sane_kw (kw mu)) by (intros mu; rewrite Hkw; split; discriminate).
    assert (HN : forall mu, kw_n (kw mu) = Some (Z.of_nat 1)) by (intros mu; rewrite Hkw; reflexivity).
    assert (HM : forall mu, kw_mu (kw mu) = Some mu) by (intros mu; rewrite Hkw; reflexivity).
    assert (HW0 : forall mu, o_w (o mu) = [0]) by (intros mu; pose proof (Ho mu) as H; rewrite Hkw in H; injection H as <-; reflexivity).
    assert (Hx : rows_of 1 [[1]; [2]]) by (repeat constructor).
    destruct (block_run rng KLMS (kw (1 / 4)) 1 (o (1 / 4)) o' (1 / 4) (par (kw_eps (kw (1 / 4))) (1 / 1000)) 2 [1; 3] [[1]; [2]] y e w (or_introl eq_refl) Hrng (HS _) (HN _) (HM _) eq_refl (Ho _) Hx eq_refl HR) as (B0 & B).
    destruct (block_run rng KLMS (kw mu1) 1 (o mu1) o1' mu1 (par (kw_eps (kw mu1)) (1 / 1000)) 1 [1; 3] [[1]; [2]] y1 e1 w1 (or_introl eq_refl) Hrng (HS _) (HN _) (HM _) eq_refl (Ho _) Hx eq_refl HR1) as (C0 & C).
    pose proof (B 0%nat ltac:(cbn; lia)) as Ba. pose proof (B 1%nat ltac:(cbn; lia)) as Bb. pose proof (C 0%nat ltac:(cbn; lia)) as Ca. pose proof (C 1%nat ltac:(cbn; lia)) as Cb.
    clear B C. cbv zeta in Ba, Bb, Ca, Cb. destruct Ba as (Ba & _). destruct Bb as (Bb & _). destruct Ca as (Ca & _). destruct Cb as (Cb & _).
    specialize (Ba 2%nat 0%nat ltac:(lia) ltac:(lia)). specialize (Bb 2%nat 0%nat ltac:(lia) ltac:(lia)). specialize (Ca 1%nat 0%nat ltac:(lia) ltac:(lia)). specialize (Cb 1%nat 0%nat ltac:(lia) ltac:(lia)).
    pose proof (EQ 1%nat ltac:(lia)) as E1. pose proof (EQ 2%nat ltac:(lia)) as E2. unfold dotn, geom in Ba, Bb, Ca, Cb. cbn [sumn nth Nat.mul Nat.add pow] in Ba, Bb, Ca, Cb, E1, E2.
    rewrite E1, E2 in *. cbn [nth Nat.mul Nat.add] in *.
    rewrite B0, HW0 in Ba. rewrite C0, HW0 in Ca. cbn [nth] in Ba, Ca.
    set (W1 := nth 0 (nth 1 (w1 ++ [o_w o1']) []) 0) in *. set (W2 := nth 0 (nth 2 (w1 ++ [o_w o1']) []) 0) in *.
    assert (M : mu1 = 7 / 16) by lra. assert (V : W1 = 7 / 16) by lra. rewrite M, V in Cb. rewrite V in Bb. lra.
  Qed.
End Program.

(** ** The hypotheses can be met *)
Section Ok.
  #[local] Hint Extern 0 (Num R) => exact (RNum rsolve) : typeclass_instances.
  Notation obj := (obj R).
  Definition reuse_kw (mu eps : R) : kwargs R := mkKw (Some 2%Z) (Some mu) (Some (WVec [1; 1])) (Some eps) None None None None None None None false.
  Definition reuse_lms (mu : R) : kwargs R := mkKw (Some 2%Z) (Some mu) (Some (WVec [1; 1])) None None None None None None None None false.
  Lemma reuse_rls mu eps : 0 < eps -> exists o : obj, new_filter zrng KRLS (reuse_kw mu eps) = Ok o /\ o_w o = [1; 1] /\ o_mu o = mu /\ exists R0, o_ext o = XRLS eps R0.
  Proof.
    intros He. unfold new_filter. cbn. destruct (Reqb _ _) eqn:E; [|eexists; repeat split; eexists; reflexivity]. exfalso. revert E. unfold Reqb. destruct (Req_EM_T _ _) as [E|]; [|discriminate].
    intros _. revert E. unfold Q2R. cbn. lra.
  Qed.
  Example C128_hypotheses : let x : list rvec := [[3; 4]; [5; 0]] in
    rng_ok (T := R) zrng /\ rows_of 2 x /\ (forall row, In row x -> normsq row = 25) /\ each 2 x = [[3; 4]; [3; 4]; [5; 0]; [5; 0]] /\
    1 - (1 - 1 / 2) ^ 2 = 3 / 4 /\ geom (1 / 2) 2 = 3 / 2 /\
    (forall mu, sane_kw (reuse_kw mu 0) /\ exists o : obj, new_filter zrng KNLMS (reuse_kw mu 0) = Ok o /\ o_w o = [1; 1]) /\
    (forall mu, sane_kw (reuse_lms mu) /\ exists o : obj, new_filter zrng KLMS (reuse_lms mu) = Ok o /\ o_w o = [1; 1]) /\
    (forall mu eps, 0 < eps -> exists o : obj, new_filter zrng KRLS (reuse_kw mu eps) = Ok o /\ o_w o = [1; 1] /\ o_mu o = mu /\ exists R0, o_ext o = XRLS eps R0) /\
    (forall c (kw : kwargs R) (o : obj) mu r, In c [KLMS; KNLMS; KRLS] -> sane_kw kw -> kw_n kw = Some 2%Z -> kw_mu kw = Some mu -> 0 < mu -> new_filter zrng c kw = Ok o -> (0 < r)%nat ->
       exists o' y e w, run (each r [1; 2]) (each r x) o = (o', Ok (y, e, w))).
  Proof.
    intros x. assert (Hx : rows_of 2 x) by (repeat constructor).
    split; [intros k; apply repeat_length|]. split; [exact Hx|]. split; [intros row [<-|[<-|[]]]; unfold normsq; cbn; lra|]. split; [reflexivity|].
    split; [lra|]. split; [unfold geom; cbn [sumn pow]; lra|].
    split; [intros mu; split; [split; discriminate|eexists; split; reflexivity]|].
    split; [intros mu; split; [split; discriminate|eexists; split; reflexivity]|].
    split; [exact reuse_rls|].
    intros c kw o mu r Hc Hkw Hn Hm Hpos Ho Hr0.
    assert (H1 : rng_ok (T := R) zrng) by (intros k; apply repeat_length).
    pose proof (reach_new 2 zrng c kw o H1 Hkw Hn Ho) as Hr.
    apply (run_exists rsolve 2); [exact Hr|apply each_rows; exact Hx|rewrite !each_length; reflexivity|destruct r; [lia|discriminate]|].
    intros ex Hs. unfold soft_exn in Hs.
    destruct (new_filter_rate rsolve _ c kw 2 o Hn Ho) as (Hmu & _ & Hext).
    destruct Hc as [<-|[<-|[<-|[]]]]; cbn [init_ext] in Hext.
    - injection Hext as Hext. rewrite <- Hext in Hs. exact Hs.
    - injection Hext as Hext. rewrite <- Hext in Hs. exact Hs.
    - match type of Hext with (if ?b then _ else _) = _ => destruct b; [discriminate Hext|] end. injection Hext as Hext. rewrite <- Hext in Hs. destruct Hs as (_ & Hs).
      assert (Hr2 : rate KRLS kw = mu) by (cbn [rate]; rewrite Hm; reflexivity).
      rewrite Hmu, Hr2 in Hs. revert Hs. cbn. unfold Reqb. destruct (Req_EM_T _ _); [lra|discriminate].
  Qed.
End Ok.
