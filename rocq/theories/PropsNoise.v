(** C53: how much disturbance in the targets can hurt LMS and NLMS (exact real arithmetic). *)
From Coq Require Import Reals Lra Psatz.
From Verif Require Import Py Num Numpy Filters Registry Spec StructProofs RunProofs Reach RVec RFilter PropsStability.
Open Scope R_scope.

(** ** Specification.  For any fixed weight vector ws (the "true system", or any competitor):
    [miss] = what the filter's output lacks to the output of ws; [noise] = what ws's output lacks to the target *)
Definition miss (ws : rvec) (x : list rvec) (y : rvec) (k : nat) : R := Rdot ws (nth k x []) - nth k y 0.
Definition noise (ws : rvec) (x : list rvec) (d : rvec) (k : nat) : R := nth k d 0 - Rdot ws (nth k x []).
Definition total (N : nat) (f : nat -> R) : R := Rsum (map f (seq 0 N)).

Lemma total_S N f : total (S N) f = total N f + f N.
Proof.
  unfold total. rewrite seq_S, map_app. cbn [map]. generalize (map f (seq 0 N)).
  induction l as [|a l IHl]; simpl in *; [ring|rewrite IHl; ring].
Qed.

Lemma total_scal N c f : c * total N f = total N (fun k => c * f k).
Proof. induction N as [|N IH]; [unfold total; simpl; ring|rewrite !total_S, <- IH; ring]. Qed.

Lemma total_minus N : forall f g : nat -> R, total N (fun k => f k + - 1 * g k) = total N f - total N g.
Proof. induction N as [|N IH]; intros f g; [unfold total; simpl; ring|rewrite !total_S, IH; ring]. Qed.

Section S.
  Variable solve : list rvec -> list rvec -> option (list rvec).
  #[local] Hint Extern 0 (Num R) => exact (RNum solve) : typeclass_instances.
  Notation obj := (obj R).

  (** summing a per-step inequality over a run; W k is the weight vector after k samples *)
  Lemma run_telescope n (o o' : obj) d x y e w (V : rvec -> R) (f : nat -> R) :
    wf n o -> rowsl n x -> run d x o = (o', Ok (y, e, w)) ->
    (forall k, (k < length x)%nat -> V (wrow w (o_w o') (S k)) <= V (wrow w (o_w o') k) + f k) ->
    V (o_w o') <= V (o_w o) + total (length x) f.
  Proof.
    intros Hr Hx E Hs.
    assert (Hl : length d = length x).
    { destruct (Nat.eq_dec (length d) (length x)) as [|Hne]; auto.
      rewrite run_bad_length in E by assumption; discriminate. }
    assert (Hne : x <> []) by (intros ->; destruct d; discriminate).
    assert (Hlw : length w = length x /\ wrow w (o_w o') 0 = o_w o).
    { destruct (run_eq n o d x Hr Hx Hl Hne) as (h & E' & _).
      rewrite E in E'. destruct (snd (adapt_all d x o)); [|discriminate].
      simpl in E'. injection E' as _ _ _ ->. split; [apply wtrace_length; auto|].
      unfold wrow; destruct d, x; [congruence|discriminate|discriminate|reflexivity]. }
    destruct Hlw as (Hlw & Hw0).
    assert (Hstep : forall m, (m <= length x)%nat -> V (wrow w (o_w o') m) <= V (o_w o) + total m f).
    { induction m as [|m IH]; intros Hm; [rewrite Hw0; unfold total; simpl; lra|].
      specialize (IH ltac:(lia)). specialize (Hs m ltac:(lia)). rewrite total_S. lra. }
    specialize (Hstep (length x) (le_n _)). unfold wrow in Hstep. rewrite app_nth2, Hlw, Nat.sub_diag in Hstep by lia. exact Hstep.
  Qed.

  (** *** Whatever the targets are, and for every competitor ws: if mu |x|^2 <= 1 at every sample, the energy of the
      misses of LMS never exceeds the energy of the noise plus the initial distance over mu (gain at most one). *)
  Theorem C53_LMS_robust : forall n (o o' : obj) d x y e w ws,
    reachable n o -> o_ext o = XLMS -> rows_of n x -> length ws = n -> run d x o = (o', Ok (y, e, w)) ->
    0 < o_mu o -> (forall k, (k < length x)%nat -> o_mu o * normsq (nth k x []) <= 1) ->
    total (length x) (fun k => miss ws x y k ^ 2) + distsq (o_w o') ws / o_mu o
      <= total (length x) (fun k => noise ws x d k ^ 2) + distsq (o_w o) ws / o_mu o.
  Proof.
    intros n o o' d x y e w ws Hr Ex Hx Hws E Hmu Hc. apply reachable_wf in Hr.
    assert (Ht : forall e v, textbook (o_ext o) (o_mu o) e v <> None) by (intros; rewrite Ex; discriminate).
    assert (Hstep : forall k, (k < length x)%nat -> distsq (wrow w (o_w o') (S k)) ws / o_mu o <=
      distsq (wrow w (o_w o') k) ws / o_mu o + (noise ws x d k ^ 2 + - 1 * miss ws x y k ^ 2)).
    2: { pose proof (run_telescope n o o' d x y e w (fun v => distsq v ws / o_mu o) _ Hr Hx E Hstep) as H.
         cbv beta in H. rewrite total_minus in H. lra. }
    intros k Hk.
    destruct (run_textbook solve n o o' d x y e w k Hr Hx Ht E Hk) as (dw & Htb & Hrow & Hy & He & Hl1 & Hl2).
    rewrite Ex in Htb; cbn [textbook] in Htb. injection Htb as <-. rewrite Hrow.
    rewrite distsq_move by congruence. rewrite <- Hy. specialize (Hc k Hk).
    unfold noise, miss. set (a := Rdot ws (nth k x [])) in *. rewrite He. set (yk := nth k y 0) in *. set (dk := nth k d 0) in *.
    set (s := normsq (nth k x [])) in *. set (mu := o_mu o) in *. set (D := distsq _ ws).
    apply Rmult_le_reg_r with mu; [exact Hmu|]. unfold Rdiv. rewrite !Rmult_plus_distr_r, !(Rmult_assoc _ (/ mu)), !Rinv_l by lra.
    rewrite !Rmult_1_r.
    assert (Hsq : 0 <= mu * (dk - yk) ^ 2 * (1 - mu * s)).
    { apply Rmult_le_pos; [apply Rmult_le_pos; [lra|apply pow2_ge_0]|lra]. }
    nra.
  Qed.

  (** *** NLMS: the same for every 0 <= mu <= 1, without any condition on the size of the inputs; both energies are
      normalised by eps + |x|^2. *)
  Theorem C53_NLMS_robust : forall n (o o' : obj) d x y e w ws eps,
    reachable n o -> o_ext o = XNLMS eps -> rows_of n x -> length ws = n -> run d x o = (o', Ok (y, e, w)) ->
    0 <= o_mu o <= 1 -> 0 <= eps -> (forall k, (k < length x)%nat -> 0 < eps + normsq (nth k x [])) ->
    o_mu o * total (length x) (fun k => miss ws x y k ^ 2 / (eps + normsq (nth k x []))) + distsq (o_w o') ws
      <= o_mu o * total (length x) (fun k => noise ws x d k ^ 2 / (eps + normsq (nth k x []))) + distsq (o_w o) ws.
  Proof.
    intros n o o' d x y e w ws eps Hr Ex Hx Hws E Hmu Heps Hp. apply reachable_wf in Hr.
    assert (Ht : forall e v, textbook (o_ext o) (o_mu o) e v <> None) by (intros; rewrite Ex; discriminate).
    assert (Hstep : forall k, (k < length x)%nat -> distsq (wrow w (o_w o') (S k)) ws <=
      distsq (wrow w (o_w o') k) ws + (o_mu o * (noise ws x d k ^ 2 / (eps + normsq (nth k x []))) +
                - 1 * (o_mu o * (miss ws x y k ^ 2 / (eps + normsq (nth k x [])))))).
    2: { pose proof (run_telescope n o o' d x y e w (fun v => distsq v ws) _ Hr Hx E Hstep) as H.
         cbv beta in H. rewrite total_minus in H. rewrite !total_scal. lra. }
    intros k Hk.
    destruct (run_textbook solve n o o' d x y e w k Hr Hx Ht E Hk) as (dw & Htb & Hrow & Hy & He & Hl1 & Hl2).
    rewrite Ex in Htb; cbn [textbook] in Htb. injection Htb as <-. rewrite Hrow.
    rewrite distsq_move by congruence. rewrite <- Hy. specialize (Hp k Hk).
    unfold noise, miss. set (a := Rdot ws (nth k x [])) in *. rewrite He. set (yk := nth k y 0) in *. set (dk := nth k d 0) in *.
    pose proof (normsq_nonneg (nth k x [])) as Hs. set (s := normsq (nth k x [])) in *. set (mu := o_mu o) in *. set (D := distsq _ ws).
    assert (Hq : 0 < / (eps + s)) by (apply Rinv_0_lt_compat; exact Hp). set (q := / (eps + s)) in *.
    assert (Hqs : mu * q * s <= 1).
    { assert (q * s <= 1). { unfold q. apply Rmult_le_reg_l with (eps + s); [lra|]. rewrite <- Rmult_assoc, Rinv_r by lra. lra. }
      rewrite Rmult_assoc. assert (0 <= q * s) by (apply Rmult_le_pos; lra). nra. }
    unfold Rdiv. fold q.
    assert (Hsq : 0 <= mu * q * (dk - yk) ^ 2 * (1 - mu * q * s)).
    { apply Rmult_le_pos; [apply Rmult_le_pos; [apply Rmult_le_pos; lra|apply pow2_ge_0]|lra]. }
    nra.
  Qed.

  (** the hypotheses are met, with targets no weight vector reproduces (noise) *)
  Example C53_hypotheses : exists (o o' : obj) d x y e w,
    reachable 2 o /\ o_ext o = XLMS /\ rows_of 2 x /\ run d x o = (o', Ok (y, e, w)) /\ 0 < o_mu o /\
    (forall k, (k < length x)%nat -> o_mu o * normsq (nth k x []) <= 1) /\
    forall ws, ~ (forall k, (k < length x)%nat -> noise ws x d k = 0).
  Proof.
    set (xs := [[1; 0]; [1; 0]]).
    assert (Hx : rows_of 2 xs) by (repeat constructor).
    assert (Hr : reachable 2 (fresh2 (1 / 2) XLMS)) by (apply (fresh2_reachable solve (1 / 2) None None None KLMS); reflexivity).
    destruct (run_exists solve 2 (fresh2 (1 / 2) XLMS) [1; 2] xs Hr Hx eq_refl) as (o' & y & e & w & E);
      [discriminate|intros ex H; exact H|].
    exists (fresh2 (1 / 2) XLMS), o', [1; 2], xs, y, e, w. split; [exact Hr|]. split; [reflexivity|]. split; [exact Hx|].
    split; [exact E|]. split; [simpl; lra|]. split.
    - intros [|[|k]] Hk; unfold normsq; simpl in *; try lia; lra.
    - intros ws H. pose proof (H 0%nat ltac:(simpl; lia)) as H0. pose proof (H 1%nat ltac:(simpl; lia)) as H1.
      unfold noise in *. change (nth 0 xs []) with [1; 0] in H0. change (nth 1 xs []) with [1; 0] in H1.
      change (nth 0 [1; 2] 0) with 1 in H0. change (nth 1 [1; 2] 0) with 2 in H1. lra.
  Qed.
End S.
