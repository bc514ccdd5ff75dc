(** C110: small changes of the data and settings change the results of run little - where they do, and where they do not. *)
From Coq Require Import Reals Lra Psatz.
From Verif Require Import Py Num Numpy Filters Registry Spec StructProofs RunProofs Reach RVec RFilter RMat PropsStability PropsAlgebra PropsAP PropsGMCC PropsRecursion.
Open Scope R_scope.

(** ** Limits along any way of approaching (a filter of sets) *)
Section Lim.
  Context {I : Type} (F : (I -> Prop) -> Prop).
  Hypothesis Fimp : forall P Q : I -> Prop, (forall i, P i -> Q i) -> F P -> F Q.
  Hypothesis Fand : forall P Q : I -> Prop, F P -> F Q -> F (fun i => P i /\ Q i).
  Hypothesis Ftrue : F (fun _ => True).

  Definition tends (f : I -> R) (l : R) : Prop := forall eps, 0 < eps -> F (fun i => Rabs (f i - l) < eps).

  Lemma F2 (P Q S : I -> Prop) : F P -> F Q -> (forall i, P i -> Q i -> S i) -> F S.
  Proof. intros H1 H2 H. apply (Fimp (fun i => P i /\ Q i)); [intros i (A & B); auto|apply Fand; assumption]. Qed.
  Lemma Fall (P : I -> Prop) : (forall i, P i) -> F P.
  Proof. intros H. apply (Fimp (fun _ => True)); auto. Qed.

  Lemma tends_ev f g l : F (fun i => f i = g i) -> tends g l -> tends f l.
  Proof. intros H1 H2 eps He. apply (F2 _ _ _ H1 (H2 eps He)). intros i -> H; exact H. Qed.
  Lemma tends_ext f g l : (forall i, f i = g i) -> tends g l -> tends f l.
  Proof. intros H. apply tends_ev. apply Fall; exact H. Qed.
  Lemma tends_lim f l l' : l = l' -> tends f l' -> tends f l.
  Proof. intros ->; auto. Qed.
  Lemma tends_const c : tends (fun _ => c) c.
  Proof. intros eps He. apply Fall. intros _. rewrite Rminus_diag_eq, Rabs_R0 by reflexivity. exact He. Qed.
  Lemma tends_plus f g a b : tends f a -> tends g b -> tends (fun i => f i + g i) (a + b).
  Proof.
    intros Hf Hg eps He. apply (F2 _ _ _ (Hf (eps / 2) ltac:(lra)) (Hg (eps / 2) ltac:(lra))). intros i H1 H2.
    replace (f i + g i - (a + b)) with ((f i - a) + (g i - b)) by ring. pose proof (Rabs_triang (f i - a) (g i - b)). lra.
  Qed.
  Lemma tends_opp f a : tends f a -> tends (fun i => - f i) (- a).
  Proof. intros Hf eps He. apply (Fimp (fun i => Rabs (f i - a) < eps)); [|apply Hf; exact He].
    intros i H. replace (- f i - - a) with (- (f i - a)) by ring. rewrite Rabs_Ropp. exact H. Qed.
  Lemma tends_minus f g a b : tends f a -> tends g b -> tends (fun i => f i - g i) (a - b).
  Proof. intros Hf Hg. exact (tends_plus f (fun i => - g i) a (- b) Hf (tends_opp g b Hg)). Qed.
  Lemma tends_bounded f a : tends f a -> F (fun i => Rabs (f i) < Rabs a + 1).
  Proof.
    intros Hf. apply (Fimp (fun i => Rabs (f i - a) < 1)); [|apply Hf; lra]. intros i H.
    pose proof (Rabs_triang (f i - a) a). replace (f i - a + a) with (f i) in H0 by ring. lra.
  Qed.
  Lemma tends_zero_times f g B : tends f 0 -> F (fun i => Rabs (g i) <= B) -> tends (fun i => f i * g i) 0.
  Proof.
    intros Hf Hg eps He. set (K := Rabs B + 1). assert (HK : 0 < K) by (unfold K; pose proof (Rabs_pos B); lra).
    apply (F2 _ _ _ (Hf (eps / K) ltac:(apply Rdiv_lt_0_compat; lra)) Hg). intros i H1 H2.
    rewrite Rminus_0_r in *. rewrite Rabs_mult. assert (H3 : Rabs (g i) <= K) by (unfold K; pose proof (Rle_abs B); lra).
    apply Rle_lt_trans with (Rabs (f i) * K); [apply Rmult_le_compat_l; [apply Rabs_pos|exact H3]|].
    apply Rlt_le_trans with (eps / K * K); [apply Rmult_lt_compat_r; assumption|]. right. field. lra.
  Qed.
  Lemma tends_dist f a : tends f a -> tends (fun i => f i - a) 0.
  Proof. intros H. apply (tends_lim _ 0 (a - a) ltac:(ring)). apply tends_minus; [exact H|apply tends_const]. Qed.
  Lemma tends_undist f a : tends (fun i => f i - a) 0 -> tends f a.
  Proof. intros H eps He. apply (Fimp (fun i => Rabs (f i - a - 0) < eps)); [|apply H; exact He]. intros i K. rewrite Rminus_0_r in K. exact K. Qed.
  Lemma tends_mult f g a b : tends f a -> tends g b -> tends (fun i => f i * g i) (a * b).
  Proof.
    intros Hf Hg. apply tends_undist. apply (tends_ext _ (fun i => (f i - a) * g i + (g i - b) * a)); [intros; ring|].
    apply (tends_lim _ 0 (0 + 0) ltac:(ring)). apply tends_plus.
    - apply (tends_zero_times _ _ (Rabs b + 1)); [apply tends_dist; exact Hf|]. apply (Fimp (fun i => Rabs (g i) < Rabs b + 1)); [intros; lra|apply tends_bounded; exact Hg].
    - apply (tends_zero_times _ _ (Rabs a)); [apply tends_dist; exact Hg|apply Fall; intros; lra].
  Qed.
  Lemma tends_comp (h : R -> R) f a : continuity_pt h a -> tends f a -> tends (fun i => h (f i)) (h a).
  Proof.
    intros Hc Hf eps He. destruct (Hc eps He) as (del & Hd & H). apply (Fimp (fun i => Rabs (f i - a) < del)); [|apply Hf; exact Hd].
    intros i Hi. destruct (Req_dec (f i) a) as [->|Hn]; [rewrite Rminus_diag_eq, Rabs_R0 by reflexivity; exact He|].
    apply H. split; [split; [exact Logic.I|]|exact Hi]. intros K; apply Hn; auto.
  Qed.
  Lemma tends_away f a : tends f a -> a <> 0 -> F (fun i => 0 < f i * a).
  Proof.
    intros Hf Ha. apply (Fimp (fun i => Rabs (f i - a) < Rabs a)); [|apply Hf; apply Rabs_pos_lt; exact Ha]. intros i H.
    apply Rabs_def2 in H. unfold Rabs in H; destruct (Rcase_abs a); nra.
  Qed.
  Lemma tends_inv f a : tends f a -> a <> 0 -> tends (fun i => / f i) (/ a).
  Proof.
    intros Hf Ha. apply (tends_comp (fun u => / u)); [|exact Hf].
    apply (continuity_pt_inv (fun u => u)); [apply derivable_continuous_pt, derivable_pt_id|exact Ha].
  Qed.
  Lemma tends_div f g a b : tends f a -> tends g b -> b <> 0 -> tends (fun i => f i / g i) (a / b).
  Proof. intros Hf Hg Hb. exact (tends_mult _ _ _ _ Hf (tends_inv _ _ Hg Hb)). Qed.
  Lemma tends_pow f a k : tends f a -> tends (fun i => f i ^ k) (a ^ k).
  Proof. intros Hf. induction k as [|k IH]; [apply (tends_ext _ (fun _ => 1)); [reflexivity|apply tends_const]|]. exact (tends_mult _ _ _ _ Hf IH). Qed.
  Lemma tends_sumn n (f : I -> nat -> R) a : (forall j, (j < n)%nat -> tends (fun i => f i j) (a j)) -> tends (fun i => sumn n (f i)) (sumn n a).
  Proof.
    induction n as [|n IH]; intros H; [exact (tends_const 0)|]. apply (tends_plus (fun i => sumn n (f i)) (fun i => f i n)); [apply IH; intros; apply H; lia|apply H; lia].
  Qed.
  Lemma tends_abs f a : tends f a -> tends (fun i => Rabs (f i)) (Rabs a).
  Proof. apply tends_comp, Rcontinuity_abs. Qed.
  Lemma tends_exp f a : tends f a -> tends (fun i => exp (f i)) (exp a).
  Proof. apply tends_comp. apply derivable_continuous_pt, derivable_pt_exp. Qed.
  Lemma tends_tanh f a : tends f a -> tends (fun i => tanh (f i)) (tanh a).
  Proof.
    intros Hf. apply (tends_ext _ (fun i => (exp (f i) - exp (- f i)) / (exp (f i) + exp (- f i)))); [intros; apply tanh_exp|].
    rewrite tanh_exp. pose proof (exp_pos a). pose proof (exp_pos (- a)).
    apply tends_div; [apply tends_minus|apply tends_plus|lra]; apply tends_exp; auto using tends_opp.
  Qed.
  Lemma tends_ln f a : tends f a -> 0 < a -> tends (fun i => ln (f i)) (ln a).
  Proof. intros Hf Ha. apply tends_comp; [|exact Hf]. apply derivable_continuous_pt. exists (/ a). apply derivable_pt_lim_ln; exact Ha. Qed.
  Lemma tends_sgn f a : tends f a -> a <> 0 -> tends (fun i => Rsgn (f i)) (Rsgn a).
  Proof.
    intros Hf Ha. apply (tends_ev _ (fun _ => Rsgn a)); [|apply tends_const]. apply (Fimp (fun i => 0 < f i * a)); [|apply tends_away; assumption].
    intros i H. unfold Rsgn. destruct (Rlt_dec (f i) 0), (Rlt_dec a 0), (Rlt_dec 0 (f i)), (Rlt_dec 0 a); try reflexivity; exfalso; nra.
  Qed.
  (** powers of a non-negative base *)
  Lemma tends_powf f b l B : tends f l -> tends b B -> (forall i, 0 <= f i) -> 0 < l \/ (l = 0 /\ 0 < B) ->
    tends (fun i => Rpowf (f i) (b i)) (Rpowf l B).
  Proof.
    intros Hf Hb Hp [Hl|(-> & HB)].
    - rewrite Rpowf_pos by exact Hl. apply (tends_ev _ (fun i => exp (b i * ln (f i)))).
      + apply (Fimp (fun i => 0 < f i * l)); [|apply tends_away; [exact Hf|lra]]. intros i H. rewrite Rpowf_pos; [reflexivity|]. nra.
      + apply tends_exp, tends_mult; [exact Hb|apply tends_ln; assumption].
    - rewrite Rpowf_zero by lra. intros eps He.
      set (t := exp (2 / B * ln eps)). assert (Ht : 0 < t) by apply exp_pos.
      apply (F2 _ _ _ (Hf (Rmin 1 t) ltac:(apply Rmin_glb_lt; lra)) (Hb (B / 2) ltac:(lra))). intros i H1 H2.
      rewrite Rminus_0_r in *. rewrite (Rabs_pos_eq (f i)) in H1 by apply Hp. apply Rabs_def2 in H2.
      pose proof (Rmin_l 1 t). pose proof (Rmin_r 1 t). pose proof (Hp i) as P0.
      destruct (Req_dec (f i) 0) as [->|Hn]; [rewrite Rpowf_zero, Rabs_R0 by lra; exact He|].
      rewrite Rpowf_pos by lra. unfold Rpower. rewrite Rabs_pos_eq by (left; apply exp_pos).
      rewrite <- (exp_ln eps He). apply exp_increasing.
      assert (L1 : ln (f i) < 0) by (rewrite <- ln_1; apply ln_increasing; lra).
      assert (L2 : ln (f i) < 2 / B * ln eps) by (rewrite <- (ln_exp (2 / B * ln eps)); apply ln_increasing; [lra|fold t; lra]).
      apply Rle_lt_trans with (B / 2 * ln (f i)); [nra|].
      apply Rlt_le_trans with (B / 2 * (2 / B * ln eps)); [apply Rmult_lt_compat_l; lra|right; field; lra].
  Qed.
  (** the shape of the GMCC increment *)
  Lemma tends_gmcc f b l B : tends f l -> tends b B -> 1 < B \/ l <> 0 ->
    tends (fun i => Rpowf (Rabs (f i)) (b i - 1) * Rsgn (f i)) (Rpowf (Rabs l) (B - 1) * Rsgn l).
  Proof.
    intros Hf Hb H. destruct (Req_dec l 0) as [->|Hl].
    - destruct H as [H|H]; [|contradiction]. rewrite Rsgn_0, Rmult_0_r. apply (tends_zero_times _ _ 1).
      + apply (tends_lim _ 0 (Rpowf (Rabs 0) (B - 1))); [rewrite Rabs_R0, Rpowf_zero by lra; reflexivity|].
        apply tends_powf; [apply tends_abs; exact Hf|apply tends_minus; [exact Hb|apply tends_const]|intros; apply Rabs_pos|right; rewrite Rabs_R0; lra].
      + apply Fall. intros i. unfold Rsgn. destruct (Rlt_dec (f i) 0); [|destruct (Rlt_dec 0 (f i))]; rewrite ?Rabs_R0; try lra; [rewrite Rabs_left|rewrite Rabs_pos_eq]; lra.
    - apply tends_mult; [|apply tends_sgn; assumption].
      apply tends_powf; [apply tends_abs; exact Hf|apply tends_minus; [exact Hb|apply tends_const]|intros; apply Rabs_pos|left; apply Rabs_pos_lt; exact Hl].
  Qed.
End Lim.

(** ** The recursions of C65 with their auxiliary sequences named (a device of the proof: [published] hides them) *)
Definition traced (c : kind) (kw : kwargs R) (n N : nat) (d : nat -> R) (x : nat -> nat -> R)
    (y e : nat -> R) (W : nat -> nat -> R) (m : nat -> R) (phi : nat -> nat -> R) (G : nat -> nat -> nat -> R) : Prop :=
  let mu := rate c kw in
  let errors := forall k, (k < N)%nat -> e k = d k - y k in
  let linear := errors /\ forall k, (k < N)%nat -> y k = dotn n (W k) (x k) in
  let moves (g : nat -> nat -> R) := forall k i, (k < N)%nat -> (i < n)%nat -> W (S k) i = W k i + g k i in
  match c with
  | KLMS => linear /\ moves (fun k i => mu * e k * x k i)
  | KLMF => linear /\ moves (fun k i => mu * e k ^ 3 * x k i)
  | KSSLMS => linear /\ moves (fun k i => mu * Rsgn (x k i) * Rsgn (e k))
  | KNLMS => let eps := par (kw_eps kw) (1 / 1000) in
      linear /\ moves (fun k i => mu / (eps + dotn n (x k) (x k)) * e k * x k i)
  | KNLMF => let eps := par (kw_eps kw) (1 / 1000) in
      linear /\ moves (fun k i => mu / (eps + dotn n (x k) (x k)) * e k ^ 3 * x k i)
  | KNSSLMS => let eps := par (kw_eps kw) (1 / 1000) in
      linear /\ moves (fun k i => mu / (eps + dotn n (x k) (x k)) * Rsgn (x k i) * Rsgn (e k))
  | KGMCC => let la := par (kw_lambd kw) (3 / 100) in let al := par (kw_alpha kw) 2 in
      linear /\ moves (fun k i =>
        mu * la * al * exp (- la * Rpowf (Rabs (e k)) al) * Rpowf (Rabs (e k)) (al - 1) * Rsgn (e k) * x k i)
  | KLlncosh => let la := par (kw_lambd kw) 3 in
      linear /\ moves (fun k i => mu * tanh (la * e k) * x k i)
  | KGNGD => let ro := par (kw_ro kw) (1 / 10) in
      linear /\
        m 0%nat = par (kw_eps kw) 1 /\
        (forall k, (k < N)%nat -> m (S k) = m k - ro * mu * (e k * before e k * dotn n (x k) (vbefore x k)
                                              / (dotn n (vbefore x k) (vbefore x k) + m k) ^ 2)) /\
        moves (fun k i => mu / (m (S k) + dotn n (x k) (x k)) * e k * x k i)
  | KRLS =>
      linear /\
        (forall i j, (i < n)%nat -> (j < n)%nat -> G 0%nat i j = / par (kw_eps kw) (1 / 1000) * delta i j) /\
        (forall k i j, (k < N)%nat -> (i < n)%nat -> (j < n)%nat ->
           let Px i := sumn n (fun a => G k i a * x k a) in
           let xP j := sumn n (fun a => x k a * G k a j) in
           G (S k) i j = / mu * (G k i j - Px i * xP j / (mu + sumn n (fun a => x k a * Px a)))) /\
        moves (fun k i => sumn n (fun j => G (S k) i j * x k j) * e k)
  | KAng => let ro := par (kw_ro kw) (2 / 10000) in let a := par (kw_a kw) (95 / 100) in
      linear /\
        m 0%nat = mu /\ (forall i, (i < n)%nat -> phi 0%nat i = 0) /\
        (forall k i, (k < N)%nat -> (i < n)%nat -> phi (S k) i = a * phi k i + before e k * vbefore x k i) /\
        (forall k, (k < N)%nat -> m (S k) = m k + ro * e k * dotn n (vbefore x k) (phi (S k))) /\
        moves (fun k i => m (S k) * e k * x k i)
  | KBenveniste => let ro := par (kw_ro kw) (1 / 10) in
      linear /\
        m 0%nat = mu /\ (forall i, (i < n)%nat -> phi 0%nat i = 0) /\
        (forall k i, (k < N)%nat -> (i < n)%nat ->
           phi (S k) i = phi k i - m k * vbefore x k i * dotn n (vbefore x k) (phi k) + before e k * vbefore x k i) /\
        (forall k, (k < N)%nat -> m (S k) = m k + ro * e k * dotn n (vbefore x k) (phi (S k))) /\
        moves (fun k i => m (S k) * e k * x k i)
  | KMathews => let ro := par (kw_ro kw) (1 / 10) in
      linear /\
        m 0%nat = mu /\
        (forall k, (k < N)%nat -> m (S k) = m k + ro * e k * before e k * dotn n (vbefore x k) (x k)) /\
        moves (fun k i => m (S k) * e k * x k i)
  | KAP => let K := par (kw_order kw) 5%nat in let ifc := par (kw_ifc kw) (1 / 1000) in
      (* column j of X and entry j of E: the sample j steps ago, seen with the current weights *)
      let X k i j := ago (fun t => x t i) k j in
      let E k j := ago d k j - sumn n (fun i => X k i j * W k i) in
      linear /\
        (forall k a b, (k < N)%nat -> (a < K)%nat -> (b < K)%nat ->
           sumn K (fun l => (sumn n (fun i => X k i a * X k i l) + ifc * delta a l) * G k l b) = delta a b) /\
        moves (fun k i => mu * sumn K (fun a => X k i a * sumn K (fun b => G k a b * E k b)))
  | KOCNLMS => let mem := par (kw_mem kw) 100%nat in let eps := par (kw_eps kw) 1 in
      (* offsets used by the output of sample k, and by its update, when x k is already in the memory *)
      let mx k i := oc_offset_x mem (2 * k) (slot mem (fun j => x j i) k) in
      let md k := oc_offset_d mem (2 * k) (slot mem m k) in
      let mx' k i := oc_offset_x mem (2 * k + 1) (slot mem (fun j => x j i) (S k)) in
      let md' k := oc_offset_d mem (2 * k + 1) (slot mem m k) in
      let u k i := x k i - mx' k i in
      errors /\ (forall k, (k < N)%nat -> y k = sumn n (fun i => W k i * (x k i - mx k i)) + md k) /\
      (forall k, (k < N)%nat -> m k = e k + (dotn n (W k) (u k) + md' k)) /\
      moves (fun k i => mu / (eps + dotn n (u k) (u k)) * e k * u k i)
  end.
Lemma published_traced c kw n N d x y e W : published c kw n N d x y e W -> exists m phi G, traced c kw n N d x y e W m phi G.
Proof.
  unfold published, traced. cbv zeta. set (z1 := fun _ : nat => 0). set (z2 := fun _ _ : nat => 0). set (z3 := fun _ _ _ : nat => 0).
  destruct c; intros H;
    first [ exists z1, z2, z3; exact H
          | destruct H as (H & G & H1); first [exists z1, z2, G; tauto | exists G, z2, z3; tauto]
          | destruct H as (H & m & phi & H1); exists m, phi, z3; tauto
          | destruct H as (t & H); exists t, z2, z3; exact H ].
Qed.

(** ** Where the results depend continuously on everything *)
(** For inputs X k i and errors E k of the run in question: no division by zero, no sign taken of a zero *)
Definition smooth (c : kind) (kw : kwargs R) (n N : nat) (X : nat -> nat -> R) (E : nat -> R) : Prop :=
  match c with
  | KLMS | KLMF | KLlncosh | KAng | KBenveniste | KMathews => True
  | KNLMS | KNLMF => forall k, (k < N)%nat -> par (kw_eps kw) (1 / 1000) + dotn n (X k) (X k) <> 0
  | KSSLMS => forall k, (k < N)%nat -> E k <> 0 /\ forall i, (i < n)%nat -> X k i <> 0
  | KNSSLMS => forall k, (k < N)%nat -> par (kw_eps kw) (1 / 1000) + dotn n (X k) (X k) <> 0 /\ E k <> 0 /\ forall i, (i < n)%nat -> X k i <> 0
  | KGMCC => 1 < par (kw_alpha kw) 2 \/ forall k, (k < N)%nat -> E k <> 0
  | KGNGD => forall eps : nat -> R, eps 0%nat = par (kw_eps kw) 1 ->
      (forall k, (k < N)%nat -> eps (S k) = eps k - par (kw_ro kw) (1 / 10) * rate KGNGD kw *
         (E k * before E k * dotn n (X k) (vbefore X k) / (dotn n (vbefore X k) (vbefore X k) + eps k) ^ 2)) ->
      forall k, (k <= N)%nat -> dotn n (vbefore X k) (vbefore X k) + eps k <> 0
  | KRLS => 0 < rate KRLS kw /\ 0 < par (kw_eps kw) (1 / 1000)
  | KAP => 0 < par (kw_ifc kw) (1 / 1000)
  | KOCNLMS => 0 < par (kw_eps kw) 1
  end.

Lemma dotn_nonneg n v : 0 <= dotn n v v.
Proof. apply sumn_nonneg. intros; nra. Qed.

(** the correlation matrix of RLS stays positive *)
Definition qform n (P : nat -> nat -> R) (u v : nat -> R) : R := sumn n (fun i => u i * sumn n (fun j => P i j * v j)).
Lemma qform_sym n P u v : (forall i j, (i < n)%nat -> (j < n)%nat -> P i j = P j i) -> qform n P u v = qform n P v u.
Proof.
  intros H. unfold qform. rewrite (sumn_ext n _ (fun i => sumn n (fun j => u i * (P i j * v j)))) by (intros; rewrite sumn_scal; reflexivity).
  rewrite sumn_swap. apply sumn_ext. intros j Hj. rewrite <- sumn_scal. apply sumn_ext. intros i Hi. rewrite (H i j) by assumption. ring.
Qed.
Lemma qform_lin n P u v w t : qform n P u (fun i => v i + t * w i) = qform n P u v + t * qform n P u w.
Proof.
  unfold qform. rewrite <- sumn_scal, <- sumn_plus. apply sumn_ext. intros i Hi.
  rewrite (sumn_ext n (fun j => P i j * (v j + t * w j)) (fun j => P i j * v j + t * (P i j * w j))) by (intros; ring).
  rewrite sumn_plus, sumn_scal. ring.
Qed.
Lemma qform_CS n P : (forall i j, (i < n)%nat -> (j < n)%nat -> P i j = P j i) -> (forall v, 0 <= qform n P v v) ->
  forall u v, qform n P u v ^ 2 <= qform n P u u * qform n P v v.
Proof.
  intros HS HP u v.
  assert (Q : forall t, 0 <= qform n P u u + 2 * t * qform n P u v + t ^ 2 * qform n P v v).
  { intros t. pose proof (HP (fun i => u i + t * v i)) as H. rewrite qform_lin in H.
    rewrite (qform_sym n P _ u HS), (qform_sym n P _ v HS), !qform_lin in H. rewrite (qform_sym n P v u HS) in H. nra. }
  destruct (Req_dec (qform n P v v) 0) as [E|E].
  - assert (Z : qform n P u v = 0). { destruct (Req_dec (qform n P u v) 0) as [?|Hn]; [assumption|exfalso].
      pose proof (Q (- (qform n P u u + 1) / (2 * qform n P u v))) as H. rewrite E in H.
      replace (2 * (- (qform n P u u + 1) / (2 * qform n P u v)) * qform n P u v) with (- (qform n P u u + 1)) in H by (field; exact Hn). lra. }
    rewrite Z, E. lra.
  - pose proof (HP v) as Hv. pose proof (Q (- qform n P u v / qform n P v v)) as H.
    replace (qform n P u u + 2 * (- qform n P u v / qform n P v v) * qform n P u v + (- qform n P u v / qform n P v v) ^ 2 * qform n P v v)
      with ((qform n P u u * qform n P v v - qform n P u v ^ 2) / qform n P v v) in H by (field; exact E).
    assert (0 <= (qform n P u u * qform n P v v - qform n P u v ^ 2) / qform n P v v * qform n P v v) by (apply Rmult_le_pos; assumption).
    replace ((qform n P u u * qform n P v v - qform n P u v ^ 2) / qform n P v v * qform n P v v) with (qform n P u u * qform n P v v - qform n P u v ^ 2) in H0 by (field; exact E). lra.
Qed.
Lemma rls_positive n N mu eps (X : nat -> nat -> R) (P : nat -> nat -> nat -> R) : 0 < mu -> 0 < eps ->
  (forall i j, (i < n)%nat -> (j < n)%nat -> P 0%nat i j = / eps * delta i j) ->
  (forall k i j, (k < N)%nat -> (i < n)%nat -> (j < n)%nat ->
     P (S k) i j = / mu * (P k i j - sumn n (fun a => P k i a * X k a) * sumn n (fun a => X k a * P k a j) / (mu + sumn n (fun a => X k a * sumn n (fun b => P k a b * X k b))))) ->
  forall k, (k <= N)%nat -> (forall i j, (i < n)%nat -> (j < n)%nat -> P k i j = P k j i) /\ forall v, 0 <= qform n (P k) v v.
Proof.
  intros Hmu He H0 HS. induction k as [|k IH]; intros Hk.
  - split; [intros i j Hi Hj; rewrite !H0 by assumption; unfold delta; rewrite Nat.eqb_sym; reflexivity|].
    intros v. apply sumn_nonneg. intros i Hi.
    rewrite (sumn_ext n _ (fun j => (if Nat.eqb i j then 1 else 0) * (/ eps * v j))) by (intros j Hj; rewrite H0 by assumption; unfold delta; ring).
    rewrite sumn_delta by exact Hi. pose proof (Rinv_0_lt_compat eps He). nra.
  - destruct (IH ltac:(lia)) as (Sy & Po). set (q := sumn n (fun a => X k a * sumn n (fun b => P k a b * X k b))) in *.
    assert (Q0 : 0 <= q) by exact (Po (X k)).
    assert (Ex : forall i, (i < n)%nat -> sumn n (fun a => X k a * P k a i) = sumn n (fun a => P k i a * X k a)).
    { intros i Hi. apply sumn_ext. intros a Ha. rewrite (Sy a i) by assumption. ring. }
    split; [intros i j Hi Hj; rewrite !HS by (assumption || lia); rewrite (Sy i j), !Ex by assumption; unfold Rdiv; ring|].
    intros v.
    assert (E : qform n (P (S k)) v v = / mu * (qform n (P k) v v - qform n (P k) v (X k) ^ 2 / (mu + q))).
    { unfold qform at 1. rewrite (sumn_ext n _ (fun i => / mu * (v i * sumn n (fun j => P k i j * v j)) - / mu * (v i * sumn n (fun a => P k i a * X k a)) * (sumn n (fun j => sumn n (fun a => P k j a * X k a) * v j) / (mu + q)))).
      - rewrite sumn_minus, sumn_scal, sumn_scal_r, sumn_scal. fold (qform n (P k) v v). fold (qform n (P k) v (X k)).
        rewrite (sumn_ext n (fun j => sumn n (fun a => P k j a * X k a) * v j) (fun j => v j * sumn n (fun a => P k j a * X k a))) by (intros; ring).
        fold (qform n (P k) v (X k)). unfold Rdiv. ring.
      - intros i Hi. rewrite (sumn_ext n (fun j => P (S k) i j * v j)
          (fun j => / mu * (P k i j * v j) - / mu * sumn n (fun a => P k i a * X k a) / (mu + q) * (sumn n (fun a => P k j a * X k a) * v j))).
        + rewrite sumn_minus, !sumn_scal. unfold Rdiv. ring.
        + intros j Hj. rewrite HS by (assumption || lia). rewrite Ex by assumption. fold q. unfold Rdiv. ring. }
    rewrite E. apply Rmult_le_pos; [left; apply Rinv_0_lt_compat; exact Hmu|].
    pose proof (qform_CS n (P k) Sy Po v (X k)) as C. change (qform n (P k) (X k) (X k)) with q in C. pose proof (Po v) as Pv.
    assert (qform n (P k) v (X k) ^ 2 / (mu + q) <= qform n (P k) v v); [|lra].
    apply Rmult_le_reg_r with (mu + q); [lra|]. unfold Rdiv. rewrite Rmult_assoc, Rinv_l, Rmult_1_r by lra. nra.
Qed.

Section Cont.
  Context {I : Type} (F : (I -> Prop) -> Prop).
  Hypothesis Fimp : forall P Q : I -> Prop, (forall i, P i -> Q i) -> F P -> F Q.
  Hypothesis Fand : forall P Q : I -> Prop, F P -> F Q -> F (fun i => P i /\ Q i).
  Hypothesis Ftrue : F (fun _ => True).
  Notation tends := (tends F).

  Lemma tends_sq f g : F (fun i => f i ^ 2 <= g i) -> tends g 0 -> tends f 0.
  Proof.
    intros H Hg eps He. apply (F2 F Fimp Fand _ _ _ H (Hg (eps ^ 2) ltac:(nra))). intros i H1 H2.
    rewrite Rminus_0_r in *. assert (f i ^ 2 < eps ^ 2) by (pose proof (Rle_abs (g i)); lra).
    unfold Rabs. destruct (Rcase_abs (f i)); nra.
  Qed.
  Lemma tends_before (f : I -> nat -> R) l k : (forall j, (S j = k)%nat -> tends (fun i => f i j) (l j)) -> tends (fun i => before (f i) k) (before l k).
  Proof. destruct k as [|k]; intros H; [exact (tends_const F Fimp Ftrue 0)|]. apply (H k); reflexivity. Qed.
  Lemma tends_vbefore (f : I -> nat -> nat -> R) l k a : (forall j, (S j = k)%nat -> tends (fun i => f i j a) (l j a)) -> tends (fun i => vbefore (f i) k a) (vbefore l k a).
  Proof. destruct k as [|k]; intros H; [exact (tends_const F Fimp Ftrue 0)|]. apply (H k); reflexivity. Qed.
  Lemma tends_ago (f : I -> nat -> R) l k j : (forall t, (t <= k)%nat -> tends (fun i => f i t) (l t)) -> tends (fun i => ago (f i) k j) (ago l k j).
  Proof. intros H. unfold ago. destruct (j <=? k)%nat; [apply H; lia|exact (tends_const F Fimp Ftrue 0)]. Qed.
  Lemma tends_dotn n (f g : I -> nat -> R) a b : (forall j, (j < n)%nat -> tends (fun i => f i j) (a j)) -> (forall j, (j < n)%nat -> tends (fun i => g i j) (b j)) ->
    tends (fun i => dotn n (f i) (g i)) (dotn n a b).
  Proof. intros Hf Hg. apply (tends_sumn F Fimp Fand Ftrue n (fun i j => f i j * g i j) (fun j => a j * b j)). intros j Hj. apply (tends_mult F Fimp Fand Ftrue); auto. Qed.
  Lemma tends_slot mem (f : I -> nat -> R) l k s : (forall j, (j < k)%nat -> tends (fun i => f i j) (l j)) -> tends (fun i => slot mem (f i) k s) (slot mem l k s).
  Proof.
    induction k as [|k IH]; intros H; [exact (tends_const F Fimp Ftrue 0)|]. cbn [slot]. destruct ((2 * k + 1) mod mem =? s)%nat; [apply H; lia|apply IH; intros; apply H; lia].
  Qed.
  Lemma tends_quot f a c : tends f a -> tends (fun i => f i / c) (a / c).
  Proof. intros H. apply (tends_mult F Fimp Fand Ftrue); [exact H|apply (tends_const F Fimp Ftrue)]. Qed.
  Lemma tends_offset_x mem c (f : I -> nat -> R) l : (forall s, tends (fun i => f i s) (l s)) -> tends (fun i => oc_offset_x mem c (f i)) (oc_offset_x mem c l).
  Proof.
    intros H. unfold oc_offset_x. destruct (c <? mem)%nat; [destruct (c =? 0)%nat; [apply (tends_const F Fimp Ftrue)|]|];
      apply tends_quot; apply (tends_sumn F Fimp Fand Ftrue); auto.
  Qed.
  Lemma tends_offset_d mem c (f : I -> nat -> R) l : (forall s, tends (fun i => f i s) (l s)) -> tends (fun i => oc_offset_d mem c (f i)) (oc_offset_d mem c l).
  Proof.
    intros H. unfold oc_offset_d. destruct (c <? mem)%nat; [destruct (c =? 0)%nat; [apply (tends_const F Fimp Ftrue)|]|];
      apply tends_quot; [|apply (tends_minus F Fimp Fand); [|apply H]]; apply (tends_sumn F Fimp Fand Ftrue); auto.
  Qed.

  (** inverses of regularised Gram matrices *)
  Lemma gram_form n K (X : nat -> nat -> R) c (h : nat -> R) :
    sumn K (fun a => h a * sumn K (fun l => (sumn n (fun i => X i a * X i l) + c * delta a l) * h l)) =
    sumn n (fun i => sumn K (fun a => X i a * h a) ^ 2) + c * sumn K (fun a => h a ^ 2).
  Proof.
    rewrite (sumn_ext K _ (fun a => h a * sumn K (fun l => sumn n (fun i => X i a * X i l * h l)) + c * h a ^ 2)).
    - rewrite sumn_plus, sumn_scal. f_equal.
      rewrite (sumn_ext K _ (fun a => sumn n (fun i => (X i a * h a) * sumn K (fun l => X i l * h l)))).
      + rewrite sumn_swap. apply sumn_ext. intros i Hi. rewrite sumn_scal_r. ring.
      + intros a Ha. rewrite sumn_swap, <- sumn_scal. apply sumn_ext. intros i Hi.
        rewrite (sumn_ext K (fun j => X i a * X i j * h j) (fun j => X i a * (X i j * h j))) by (intros; ring). rewrite sumn_scal. ring.
    - intros a Ha. rewrite (sumn_ext K (fun l => (sumn n (fun i => X i a * X i l) + c * delta a l) * h l)
        (fun l => sumn n (fun i => X i a * X i l * h l) + (if Nat.eqb a l then 1 else 0) * (c * h l))).
      + rewrite sumn_plus, (sumn_delta K a (fun l => c * h l)) by exact Ha. ring.
      + intros l Hl. rewrite sumn_scal_r. unfold delta. ring.
  Qed.
  Lemma inverse_tends n K (X : I -> nat -> nat -> R) (XL : nat -> nat -> R) (c : I -> R) (cL : R) (G : I -> nat -> nat -> R) (GL : nat -> nat -> R) b :
    (b < K)%nat -> 0 < cL -> tends c cL -> (forall i a, (i < n)%nat -> (a < K)%nat -> tends (fun t => X t i a) (XL i a)) ->
    F (fun t => forall a, (a < K)%nat -> sumn K (fun l => (sumn n (fun i => X t i a * X t i l) + c t * delta a l) * G t l b) = delta a b) ->
    (forall a, (a < K)%nat -> sumn K (fun l => (sumn n (fun i => XL i a * XL i l) + cL * delta a l) * GL l b) = delta a b) ->
    forall a, (a < K)%nat -> tends (fun t => G t a b) (GL a b).
  Proof.
    intros Hb Hc Tc TX HG HL a Ha.
    set (r := fun t a => sumn K (fun l => ((sumn n (fun i => XL i a * XL i l) + cL * delta a l) - (sumn n (fun i => X t i a * X t i l) + c t * delta a l)) * GL l b)).
    assert (Tr : forall a, (a < K)%nat -> tends (fun t => r t a) 0).
    { intros a' Ha'. unfold r. apply (tends_lim F _ 0 (sumn K (fun l => 0))); [symmetry; apply sumn_0|].
      apply (tends_sumn F Fimp Fand Ftrue). intros l Hl. apply (tends_zero_times F Fimp Fand _ _ (Rabs (GL l b))); [|apply (Fall F Fimp Ftrue); intros; lra].
      set (A0 := sumn n (fun i => XL i a' * XL i l) + cL * delta a' l). apply (tends_lim F _ 0 (A0 - A0) ltac:(ring)).
      apply (tends_minus F Fimp Fand); [apply (tends_const F Fimp Ftrue)|]. unfold A0. apply (tends_plus F Fimp Fand).
      - apply (tends_sumn F Fimp Fand Ftrue). intros i Hi. apply (tends_mult F Fimp Fand Ftrue); apply TX; assumption.
      - apply (tends_mult F Fimp Fand Ftrue); [exact Tc|apply (tends_const F Fimp Ftrue)]. }
    apply (tends_undist F Fimp). apply (tends_sq _ (fun t => sumn K (fun a => r t a ^ 2) / c t ^ 2)).
    - apply (F2 F Fimp Fand _ _ _ HG (tends_away F Fimp c cL Tc ltac:(lra))). intros t H1 H2.
      assert (Pc : 0 < c t) by nra. set (h := fun l => G t l b - GL l b).
      assert (Eh : forall a, (a < K)%nat -> sumn K (fun l => (sumn n (fun i => X t i a * X t i l) + c t * delta a l) * h l) = r t a).
      { intros a' Ha'. unfold h, r. rewrite (sumn_ext K (fun l => (sumn n (fun i => X t i a' * X t i l) + c t * delta a' l) * (G t l b - GL l b))
          (fun l => (sumn n (fun i => X t i a' * X t i l) + c t * delta a' l) * G t l b - (sumn n (fun i => X t i a' * X t i l) + c t * delta a' l) * GL l b)) by (intros; ring).
        rewrite sumn_minus, H1 by exact Ha'. rewrite <- (HL a' Ha'), <- sumn_minus. apply sumn_ext. intros; ring. }
      pose proof (gram_form n K (X t) (c t) h) as Q. rewrite (sumn_ext K _ (fun a => h a * r t a)) in Q by (intros a' Ha'; rewrite Eh by exact Ha'; reflexivity).
      assert (Q1 : 0 <= sumn n (fun i => sumn K (fun a => X t i a * h a) ^ 2)) by (apply sumn_nonneg; intros; apply pow2_ge_0).
      assert (Q2 : sumn K (fun a => h a * r t a) <= c t / 2 * sumn K (fun a => h a ^ 2) + / (2 * c t) * sumn K (fun a => r t a ^ 2)).
      { rewrite <- !sumn_scal, <- sumn_plus. apply sumn_le. intros a' _. pose proof (pow2_ge_0 (c t * h a' - r t a')) as S.
        apply Rmult_le_reg_l with (2 * c t); [lra|]. replace (2 * c t * (c t / 2 * h a' ^ 2 + / (2 * c t) * r t a' ^ 2)) with (c t ^ 2 * h a' ^ 2 + r t a' ^ 2) by (field; lra). nra. }
      assert (Q3 : h a ^ 2 <= sumn K (fun a => h a ^ 2)).
      { clear - Ha. induction K as [|K IH]; [lia|]. cbn [sumn]. destruct (Nat.eq_dec a K) as [->|].
        - assert (0 <= sumn K (fun a => h a ^ 2)) by (apply sumn_nonneg; intros; apply pow2_ge_0). lra.
        - specialize (IH ltac:(lia)). pose proof (pow2_ge_0 (h K)). lra. }
      change (G t a b - GL a b) with (h a). set (H := sumn K (fun a => h a ^ 2)) in *. set (RR := sumn K (fun a => r t a ^ 2)) in *.
      apply Rle_trans with H; [exact Q3|]. apply Rmult_le_reg_r with (c t ^ 2); [nra|]. unfold Rdiv. rewrite Rmult_assoc, Rinv_l, Rmult_1_r by nra.
      assert (Q4 : c t / 2 * H <= / (2 * c t) * RR) by lra. apply (Rmult_le_compat_l (2 * c t)) in Q4; [|lra].
      replace (2 * c t * (/ (2 * c t) * RR)) with RR in Q4 by (field; lra). nra.
    - apply (tends_lim F _ 0 (sumn K (fun a => 0) / cL ^ 2)); [rewrite sumn_0; unfold Rdiv; ring|].
      apply (tends_div F Fimp Fand Ftrue); [|apply (tends_pow F Fimp Fand Ftrue); exact Tc|nra].
      apply (tends_sumn F Fimp Fand Ftrue). intros a' Ha'. apply (tends_lim F _ 0 (0 ^ 2) ltac:(ring)). apply (tends_pow F Fimp Fand Ftrue). apply Tr; exact Ha'.
  Qed.

  Ltac td :=
    lazymatch goal with
    | |- PropsContinuity.tends _ _ _ =>
      first [ assumption
            | apply (tends_const F Fimp Ftrue)
            | apply (tends_tanh F Fimp Fand Ftrue)
            | apply (tends_exp F Fimp)
            | apply (tends_pow F Fimp Fand Ftrue)
            | apply (tends_div F Fimp Fand Ftrue)
            | apply (tends_minus F Fimp Fand)
            | apply (tends_plus F Fimp Fand)
            | apply (tends_mult F Fimp Fand Ftrue)
            | apply (tends_opp F Fimp)
            | apply (tends_inv F Fimp)
            | apply tends_dotn
            | apply (tends_sumn F Fimp Fand Ftrue)
            ]; cbv beta
    | _ => first [assumption | intros]
    end.

  Variables (c : kind) (n N : nat).
  Variables (kw : I -> kwargs R) (d : I -> nat -> R) (x : I -> nat -> nat -> R) (y e : I -> nat -> R) (W : I -> nat -> nat -> R)
            (m : I -> nat -> R) (phi : I -> nat -> nat -> R) (G : I -> nat -> nat -> nat -> R).
  Variables (KW : kwargs R) (D : nat -> R) (X : nat -> nat -> R) (Y E : nat -> R) (V : nat -> nat -> R)
            (M : nat -> R) (PHI : nat -> nat -> R) (GG : nat -> nat -> nat -> R).
  Hypothesis Tmu : tends (fun i => rate c (kw i)) (rate c KW).
  Hypothesis Teps : forall z, tends (fun i => par (kw_eps (kw i)) z) (par (kw_eps KW) z).
  Hypothesis Tro : forall z, tends (fun i => par (kw_ro (kw i)) z) (par (kw_ro KW) z).
  Hypothesis Ta : forall z, tends (fun i => par (kw_a (kw i)) z) (par (kw_a KW) z).
  Hypothesis Tla : forall z, tends (fun i => par (kw_lambd (kw i)) z) (par (kw_lambd KW) z).
  Hypothesis Tal : forall z, tends (fun i => par (kw_alpha (kw i)) z) (par (kw_alpha KW) z).
  Hypothesis Tifc : forall z, tends (fun i => par (kw_ifc (kw i)) z) (par (kw_ifc KW) z).
  Hypothesis Tord : F (fun i => kw_order (kw i) = kw_order KW).
  Hypothesis Tmem : F (fun i => kw_mem (kw i) = kw_mem KW).
  Hypothesis Td : forall k, (k < N)%nat -> tends (fun i => d i k) (D k).
  Hypothesis Tx : forall k j, (k < N)%nat -> (j < n)%nat -> tends (fun i => x i k j) (X k j).
  Hypothesis T0 : forall j, (j < n)%nat -> tends (fun i => W i 0%nat j) (V 0%nat j).

  Lemma cont_scheme (Q : nat -> Prop) :
    F (fun i => forall k, (k < N)%nat -> e i k = d i k - y i k) -> F (fun i => forall k, (k < N)%nat -> y i k = dotn n (W i k) (x i k)) ->
    (forall k, (k < N)%nat -> E k = D k - Y k) -> (forall k, (k < N)%nat -> Y k = dotn n (V k) (X k)) -> Q 0%nat ->
    (forall k, (k < N)%nat -> Q k -> (forall t, (t <= k)%nat -> tends (fun i => e i t) (E t)) -> (forall j, (j < n)%nat -> tends (fun i => W i k j) (V k j)) ->
       Q (S k) /\ forall j, (j < n)%nat -> tends (fun i => W i (S k) j) (V (S k) j)) ->
    (forall k, (k < N)%nat -> tends (fun i => y i k) (Y k) /\ tends (fun i => e i k) (E k)) /\
    (forall k j, (k <= N)%nat -> (j < n)%nat -> tends (fun i => W i k j) (V k j)).
  Proof.
    intros HE HY LE LY Q0 Hstep.
    assert (HO : forall k, (k < N)%nat -> (forall j, (j < n)%nat -> tends (fun i => W i k j) (V k j)) -> tends (fun i => y i k) (Y k) /\ tends (fun i => e i k) (E k)).
    { intros k Hk H. assert (TY : tends (fun i => y i k) (Y k)).
      { apply (tends_ev F Fimp Fand _ (fun i => dotn n (W i k) (x i k))); [refine (Fimp _ _ _ HY); cbv beta; intros i P; exact (P k Hk)|].
        rewrite LY by exact Hk. apply tends_dotn; auto. }
      split; [exact TY|]. apply (tends_ev F Fimp Fand _ (fun i => d i k - y i k)); [refine (Fimp _ _ _ HE); cbv beta; intros i P; exact (P k Hk)|].
      rewrite LE by exact Hk. apply (tends_minus F Fimp Fand); auto. }
    assert (HI : forall k, (k <= N)%nat -> Q k /\ (forall j, (j < n)%nat -> tends (fun i => W i k j) (V k j)) /\ forall t, (t < k)%nat -> tends (fun i => e i t) (E t)).
    { induction k as [|k IH]; intros Hk; [split; [exact Q0|split; [exact T0|intros; lia]]|].
      destruct (IH ltac:(lia)) as (H1 & H2 & H3). destruct (HO k ltac:(lia) H2) as (_ & He).
      assert (H4 : forall t, (t < S k)%nat -> tends (fun i => e i t) (E t)).
      { intros t Ht. destruct (Nat.eq_dec t k) as [->|]; [exact He|apply H3; lia]. }
      destruct (Hstep k ltac:(lia) H1 ltac:(intros; apply H4; lia) H2) as (H5 & H6). auto. }
    split; [|intros k j Hk Hj; apply HI; assumption]. intros k Hk. apply HO; [exact Hk|]. apply HI. lia.
  Qed.

  Lemma continuous : smooth c KW n N X E -> F (fun i => traced c (kw i) n N (d i) (x i) (y i) (e i) (W i) (m i) (phi i) (G i)) ->
    traced c KW n N D X Y E V M PHI GG ->
    (forall k, (k < N)%nat -> tends (fun i => y i k) (Y k) /\ tends (fun i => e i k) (E k)) /\
    (forall k j, (k <= N)%nat -> (j < n)%nat -> tends (fun i => W i k j) (V k j)).
  Proof.
    intros HS HF HL. unfold smooth, traced in *. cbv zeta in *.
    assert (Bx : forall k j, (k < N)%nat -> (j < n)%nat -> tends (fun i => vbefore (x i) k j) (vbefore X k j)) by (intros k j Hk Hj; apply tends_vbefore; intros; apply Tx; lia).
    assert (Be : forall k, (k < N)%nat -> (forall t, (t <= k)%nat -> tends (fun i => e i t) (E t)) -> tends (fun i => before (e i) k) (before E k)) by (intros k Hk H; apply tends_before; intros; apply H; lia).
    assert (ML : forall (g : I -> nat -> nat -> R) GL,
      F (fun i => ((forall k, (k < N)%nat -> e i k = d i k - y i k) /\ forall k, (k < N)%nat -> y i k = dotn n (W i k) (x i k)) /\
                  forall k j, (k < N)%nat -> (j < n)%nat -> W i (S k) j = W i k j + g i k j) ->
      ((forall k, (k < N)%nat -> E k = D k - Y k) /\ forall k, (k < N)%nat -> Y k = dotn n (V k) (X k)) /\
      (forall k j, (k < N)%nat -> (j < n)%nat -> V (S k) j = V k j + GL k j) ->
      (forall k j, (k < N)%nat -> (j < n)%nat -> tends (fun i => e i k) (E k) -> tends (fun i => x i k j) (X k j) ->
         tends (fun i => dotn n (x i k) (x i k)) (dotn n (X k) (X k)) -> tends (fun i => g i k j) (GL k j)) ->
      (forall k, (k < N)%nat -> tends (fun i => y i k) (Y k) /\ tends (fun i => e i k) (E k)) /\
      (forall k j, (k <= N)%nat -> (j < n)%nat -> tends (fun i => W i k j) (V k j))).
    { clear HF HL. intros g GL HF ((LE & LY) & LM) Hg. apply (cont_scheme (fun _ => True)); auto.
      - refine (Fimp _ _ _ HF); intros i P; exact (proj1 (proj1 P)).
      - refine (Fimp _ _ _ HF); intros i P; exact (proj2 (proj1 P)).
      - intros k Hk _ He Hw; split; [exact Logic.I|]; intros j Hj; rewrite LM by assumption.
        apply (tends_ev F Fimp Fand _ (fun i => W i k j + g i k j)); [refine (Fimp _ _ _ HF); intros i P; exact (proj2 P k j Hk Hj)|].
        apply (tends_plus F Fimp Fand); [apply Hw; exact Hj|]. apply Hg; auto. apply tends_dotn; intros; apply Tx; assumption. }
    destruct c.
    - (* AP *) destruct HL as ((LE & LY) & LG & LM). set (K := par (kw_order KW) 5%nat) in *.
      assert (HF' := F2 F Fimp Fand _ _ _ HF Tord (fun i P Q => conj P Q)). clear HF. rename HF' into HF.
      apply (cont_scheme (fun _ => True)); auto.
      + refine (Fimp _ _ _ HF); intros i (P & _); exact (proj1 (proj1 P)).
      + refine (Fimp _ _ _ HF); intros i (P & _); exact (proj2 (proj1 P)).
      + intros k Hk _ He Hw. split; [exact Logic.I|]. intros j Hj. rewrite LM by assumption.
        apply (tends_ev F Fimp Fand _ (fun i => W i k j + rate KAP (kw i) * sumn K (fun a => ago (fun t => x i t j) k a * sumn K (fun b => G i k a b * (ago (d i) k b - sumn n (fun i0 => ago (fun t => x i t i0) k b * W i k i0)))))).
        { refine (Fimp _ _ _ HF); intros i (((_ & _) & _ & P) & Q). rewrite Q in P. exact (P k j Hk Hj). }
        assert (TX : forall i0 a, (i0 < n)%nat -> tends (fun i => ago (fun t => x i t i0) k a) (ago (fun t => X t i0) k a)).
        { intros i0 a Hi0. apply (tends_ago (fun i t => x i t i0) (fun t => X t i0)). intros t Ht. apply Tx; [lia|exact Hi0]. }
        assert (TG : forall a b, (a < K)%nat -> (b < K)%nat -> tends (fun i => G i k a b) (GG k a b)).
        { intros a b Ha Hb. apply (inverse_tends n K (fun i i0 a => ago (fun t => x i t i0) k a) (fun i0 a => ago (fun t => X t i0) k a) (fun i => par (kw_ifc (kw i)) (1 / 1000)) (par (kw_ifc KW) (1 / 1000)) (fun i => G i k) (GG k) b); auto.
          refine (Fimp _ _ _ HF); intros i (((_ & _) & P & _) & Q). rewrite Q in P. intros a' Ha'. exact (P k a' b Hk Ha' Hb). }
        apply (tends_plus F Fimp Fand); [apply Hw; exact Hj|]. apply (tends_mult F Fimp Fand Ftrue); [exact Tmu|].
        apply (tends_sumn F Fimp Fand Ftrue). intros a Ha. apply (tends_mult F Fimp Fand Ftrue); [apply TX; exact Hj|].
        apply (tends_sumn F Fimp Fand Ftrue). intros b Hb. apply (tends_mult F Fimp Fand Ftrue); [apply TG; assumption|].
        apply (tends_minus F Fimp Fand); [apply tends_ago; intros; apply Td; lia|].
        apply (tends_sumn F Fimp Fand Ftrue). intros i0 Hi0. apply (tends_mult F Fimp Fand Ftrue); auto.
    - (* GMCC *) refine (ML (fun i k j => _) (fun k j => _) HF HL _). intros k j Hk Hj He Hx _. cbv beta.
      apply (tends_ext F Fimp Fand Ftrue _ (fun i => rate KGMCC (kw i) * par (kw_lambd (kw i)) (3 / 100) * par (kw_alpha (kw i)) 2 * exp (- par (kw_lambd (kw i)) (3 / 100) * Rpowf (Rabs (e i k)) (par (kw_alpha (kw i)) 2)) *
        (Rpowf (Rabs (e i k)) (par (kw_alpha (kw i)) 2 - 1) * Rsgn (e i k)) * x i k j)); [intros; ring|].
      match goal with |- PropsContinuity.tends _ _ ?l => apply (tends_lim F _ l (rate KGMCC KW * par (kw_lambd KW) (3 / 100) * par (kw_alpha KW) 2 * exp (- par (kw_lambd KW) (3 / 100) * Rpowf (Rabs (E k)) (par (kw_alpha KW) 2)) *
        (Rpowf (Rabs (E k)) (par (kw_alpha KW) 2 - 1) * Rsgn (E k)) * X k j)); [ring|] end.
      assert (H1 : 1 < par (kw_alpha KW) 2 \/ E k <> 0) by (destruct HS as [HS|HS]; [left; exact HS|right; apply HS; exact Hk]).
      pose proof (Tla (3 / 100)) as T1. pose proof (Tal 2) as T2.
      apply (tends_mult F Fimp Fand Ftrue); [|exact Hx]. apply (tends_mult F Fimp Fand Ftrue); [|apply (tends_gmcc F Fimp Fand Ftrue); assumption].
      repeat td.
      apply (tends_powf F Fimp Fand Ftrue); [apply (tends_abs F Fimp); exact He|exact T2|intros; apply Rabs_pos|].
      destruct (Req_dec (E k) 0) as [Z|Z]; [right; rewrite Z, Rabs_R0; split; [reflexivity|destruct H1 as [H1|H1]; [lra|contradiction]]|left; apply Rabs_pos_lt; exact Z].
    - (* GNGD *) destruct HL as ((LE & LY) & L0 & LR & LM). pose proof (HS M L0 LR) as HN. pose proof (Tro (1 / 10)) as T1. pose proof (Teps 1) as T2.
      apply (cont_scheme (fun k => tends (fun i => m i k) (M k))); auto.
      + refine (Fimp _ _ _ HF); intros i P; exact (proj1 (proj1 P)).
      + refine (Fimp _ _ _ HF); intros i P; exact (proj2 (proj1 P)).
      + apply (tends_ev F Fimp Fand _ (fun i => par (kw_eps (kw i)) 1)); [refine (Fimp _ _ _ HF); intros i (_ & P & _); exact P|]. rewrite L0. exact T2.
      + intros k Hk Hm He Hw. pose proof (He k (le_n k)) as Hek. pose proof (Be k Hk He) as Hbe.
        assert (Dx : tends (fun i => dotn n (x i k) (x i k)) (dotn n (X k) (X k))) by (apply tends_dotn; auto).
        assert (Db : tends (fun i => dotn n (x i k) (vbefore (x i) k)) (dotn n (X k) (vbefore X k))) by (apply tends_dotn; auto).
        assert (Dv : tends (fun i => dotn n (vbefore (x i) k) (vbefore (x i) k)) (dotn n (vbefore X k) (vbefore X k))) by (apply tends_dotn; auto).
        pose proof (HN k ltac:(lia)) as N1. pose proof (HN (S k) ltac:(lia)) as N2. change (vbefore X (S k)) with (X k) in N2.
        assert (Hm' : tends (fun i => m i (S k)) (M (S k))).
        { rewrite LR by exact Hk. eapply (tends_ev F Fimp Fand); [refine (Fimp _ _ _ HF); intros i (_ & _ & P & _); exact (P k Hk)|]. cbv beta. repeat td.
          apply pow_nonzero; exact N1. }
        split; [exact Hm'|]. intros j Hj. rewrite LM by assumption. pose proof (Hw j Hj). pose proof (Tx k j Hk Hj).
        eapply (tends_ev F Fimp Fand); [refine (Fimp _ _ _ HF); intros i (_ & _ & _ & P); exact (P k j Hk Hj)|]. cbv beta. repeat td. rewrite Rplus_comm. exact N2.
    - (* Llncosh *) refine (ML (fun i k j => _) (fun k j => _) HF HL _). intros k j Hk Hj He Hx _. cbv beta. pose proof (Tla 3). repeat td.
    - (* LMF *) refine (ML (fun i k j => _) (fun k j => _) HF HL _). intros k j Hk Hj He Hx _. cbv beta. repeat td.
    - (* LMS *) refine (ML (fun i k j => _) (fun k j => _) HF HL _). intros k j Hk Hj He Hx _. cbv beta. repeat td.
    - (* NLMF *) refine (ML (fun i k j => _) (fun k j => _) HF HL _). intros k j Hk Hj He Hx Hd. cbv beta. pose proof (Teps (1 / 1000)). pose proof (HS k Hk). repeat td.
    - (* NLMS *) refine (ML (fun i k j => _) (fun k j => _) HF HL _). intros k j Hk Hj He Hx Hd. cbv beta. pose proof (Teps (1 / 1000)). pose proof (HS k Hk). repeat td.
    - (* NSSLMS *) refine (ML (fun i k j => _) (fun k j => _) HF HL _). intros k j Hk Hj He Hx Hd. cbv beta. pose proof (Teps (1 / 1000)). destruct (HS k Hk) as (S1 & S2 & S3).
      apply (tends_mult F Fimp Fand Ftrue); [apply (tends_mult F Fimp Fand Ftrue)|apply (tends_sgn F Fimp Fand Ftrue); assumption]; [repeat td|apply (tends_sgn F Fimp Fand Ftrue); auto].
    - (* OCNLMS *) destruct HL as (LE & LY & LT & LM). pose proof (Teps 1) as T1. set (mem := par (kw_mem KW) 100%nat) in *.
      set (mx := fun (x : nat -> nat -> R) k i => oc_offset_x mem (2 * k) (slot mem (fun j => x j i) k)) in *.
      set (mx' := fun (x : nat -> nat -> R) k i => oc_offset_x mem (2 * k + 1) (slot mem (fun j => x j i) (S k))) in *.
      assert (HF' : F (fun i => (forall k, (k < N)%nat -> e i k = d i k - y i k) /\
        (forall k, (k < N)%nat -> y i k = sumn n (fun i0 => W i k i0 * (x i k i0 - mx (x i) k i0)) + oc_offset_d mem (2 * k) (slot mem (m i) k)) /\
        (forall k, (k < N)%nat -> m i k = e i k + (dotn n (W i k) (fun i0 => x i k i0 - mx' (x i) k i0) + oc_offset_d mem (2 * k + 1) (slot mem (m i) k))) /\
        (forall k i0, (k < N)%nat -> (i0 < n)%nat -> W i (S k) i0 = W i k i0 +
           rate KOCNLMS (kw i) / (par (kw_eps (kw i)) 1 + dotn n (fun i0 => x i k i0 - mx' (x i) k i0) (fun i0 => x i k i0 - mx' (x i) k i0)) * e i k * (x i k i0 - mx' (x i) k i0)))).
      { apply (F2 F Fimp Fand _ _ _ HF Tmem). intros i P Q. rewrite Q in P. exact P. }
      clear HF. rename HF' into HF.
      assert (Tmx : forall k j, (k < N)%nat -> (j < n)%nat -> tends (fun i => x i k j - mx (x i) k j) (X k j - mx X k j)).
      { intros k j Hk Hj. apply (tends_minus F Fimp Fand); [auto|]. unfold mx. apply tends_offset_x. intros s0. apply (tends_slot mem (fun i t => x i t j) (fun t => X t j)). intros; apply Tx; [lia|exact Hj]. }
      assert (Tmx' : forall k j, (k < N)%nat -> (j < n)%nat -> tends (fun i => x i k j - mx' (x i) k j) (X k j - mx' X k j)).
      { intros k j Hk Hj. apply (tends_minus F Fimp Fand); [auto|]. unfold mx'. apply tends_offset_x. intros s0. apply (tends_slot mem (fun i t => x i t j) (fun t => X t j)). intros; apply Tx; [lia|exact Hj]. }
      assert (STEP : forall k, (k < N)%nat -> (forall j, (j < n)%nat -> tends (fun i => W i k j) (V k j)) -> (forall t, (t < k)%nat -> tends (fun i => m i t) (M t)) ->
        tends (fun i => y i k) (Y k) /\ tends (fun i => e i k) (E k) /\ tends (fun i => m i k) (M k) /\ forall j, (j < n)%nat -> tends (fun i => W i (S k) j) (V (S k) j)).
      { intros k Hk Hw Hm.
        assert (Hy : tends (fun i => y i k) (Y k)).
        { rewrite LY by exact Hk. eapply (tends_ev F Fimp Fand); [refine (Fimp _ _ _ HF); intros i (_ & P & _); exact (P k Hk)|]. cbv beta.
          apply (tends_plus F Fimp Fand); [|apply tends_offset_d; intros s0; apply tends_slot; exact Hm].
          apply (tends_sumn F Fimp Fand Ftrue). intros j Hj. apply (tends_mult F Fimp Fand Ftrue); [auto|apply Tmx; assumption]. }
        assert (He : tends (fun i => e i k) (E k)).
        { rewrite LE by exact Hk. eapply (tends_ev F Fimp Fand); [refine (Fimp _ _ _ HF); intros i (P & _); exact (P k Hk)|]. apply (tends_minus F Fimp Fand); auto. }
        split; [exact Hy|]. split; [exact He|]. split.
        - rewrite LT by exact Hk. eapply (tends_ev F Fimp Fand); [refine (Fimp _ _ _ HF); intros i (_ & _ & P & _); exact (P k Hk)|]. cbv beta.
          apply (tends_plus F Fimp Fand); [exact He|]. apply (tends_plus F Fimp Fand); [|apply tends_offset_d; intros s0; apply tends_slot; exact Hm].
          apply tends_dotn; [exact Hw|intros j Hj; apply (Tmx' k j); assumption].
        - intros j Hj. rewrite LM by assumption. eapply (tends_ev F Fimp Fand); [refine (Fimp _ _ _ HF); intros i (_ & _ & _ & P); exact (P k j Hk Hj)|]. cbv beta.
          apply (tends_plus F Fimp Fand); [auto|]. apply (tends_mult F Fimp Fand Ftrue); [|apply (Tmx' k j); assumption]. apply (tends_mult F Fimp Fand Ftrue); [|exact He].
          apply (tends_div F Fimp Fand Ftrue); [exact Tmu| |].
          + apply (tends_plus F Fimp Fand); [exact T1|]. apply tends_dotn; intros j0 Hj0; apply (Tmx' k j0); assumption.
          + pose proof (dotn_nonneg n (fun i0 => X k i0 - mx' X k i0)) as Z. unfold mx' in Z. lra. }
      assert (HI : forall k, (k <= N)%nat -> (forall j, (j < n)%nat -> tends (fun i => W i k j) (V k j)) /\ forall t, (t < k)%nat -> tends (fun i => m i t) (M t)).
      { induction k as [|k IH]; intros Hk; [split; [exact T0|intros; lia]|]. destruct (IH ltac:(lia)) as (H1 & H2). destruct (STEP k ltac:(lia) H1 H2) as (_ & _ & H3 & H4).
        split; [exact H4|]. intros t Ht. destruct (Nat.eq_dec t k) as [->|]; [exact H3|apply H2; lia]. }
      split; [|intros k j Hk Hj; apply HI; assumption]. intros k Hk. destruct (HI k ltac:(lia)) as (H1 & H2). destruct (STEP k Hk H1 H2) as (H3 & H4 & _). auto.
    - (* RLS *) destruct HL as ((LE & LY) & L0 & LR & LM). destruct HS as (S1 & S2). pose proof (Teps (1 / 1000)) as T2.
      pose proof (rls_positive n N _ _ X GG S1 S2 L0 LR) as PO.
      apply (cont_scheme (fun k => forall a b, (a < n)%nat -> (b < n)%nat -> tends (fun i => G i k a b) (GG k a b))); auto.
      + refine (Fimp _ _ _ HF); intros i P; exact (proj1 (proj1 P)).
      + refine (Fimp _ _ _ HF); intros i P; exact (proj2 (proj1 P)).
      + intros a b Ha Hb. rewrite L0 by assumption. eapply (tends_ev F Fimp Fand); [refine (Fimp _ _ _ HF); intros i (_ & P & _); exact (P a b Ha Hb)|]. cbv beta.
        apply (tends_mult F Fimp Fand Ftrue); [apply (tends_inv F Fimp); [exact T2|lra]|apply (tends_const F Fimp Ftrue)].
      + intros k Hk HP He Hw. pose proof (He k (le_n k)) as Hek.
        assert (TPx : forall a, (a < n)%nat -> tends (fun i => sumn n (fun b => G i k a b * x i k b)) (sumn n (fun b => GG k a b * X k b))).
        { intros a Ha. apply (tends_sumn F Fimp Fand Ftrue). intros b Hb. apply (tends_mult F Fimp Fand Ftrue); auto. }
        assert (HP' : forall a b, (a < n)%nat -> (b < n)%nat -> tends (fun i => G i (S k) a b) (GG (S k) a b)).
        { intros a b Ha Hb. rewrite LR by assumption. eapply (tends_ev F Fimp Fand); [refine (Fimp _ _ _ HF); intros i (_ & _ & P & _); exact (P k a b Hk Ha Hb)|]. cbv beta.
          apply (tends_mult F Fimp Fand Ftrue); [apply (tends_inv F Fimp); [exact Tmu|lra]|]. apply (tends_minus F Fimp Fand); [auto|].
          apply (tends_div F Fimp Fand Ftrue).
          - apply (tends_mult F Fimp Fand Ftrue); [apply TPx; exact Ha|]. apply (tends_sumn F Fimp Fand Ftrue). intros t Ht. apply (tends_mult F Fimp Fand Ftrue); auto.
          - apply (tends_plus F Fimp Fand); [exact Tmu|]. apply (tends_sumn F Fimp Fand Ftrue). intros t Ht. apply (tends_mult F Fimp Fand Ftrue); auto.
          - pose proof (proj2 (PO k ltac:(lia)) (X k)) as Z. unfold qform in Z. lra. }
        split; [exact HP'|]. intros j Hj. rewrite LM by assumption. eapply (tends_ev F Fimp Fand); [refine (Fimp _ _ _ HF); intros i (_ & _ & _ & P); exact (P k j Hk Hj)|]. cbv beta.
        apply (tends_plus F Fimp Fand); [auto|]. apply (tends_mult F Fimp Fand Ftrue); [|exact Hek]. apply (tends_sumn F Fimp Fand Ftrue). intros b Hb. apply (tends_mult F Fimp Fand Ftrue); auto.
    - (* SSLMS *) refine (ML (fun i k j => _) (fun k j => _) HF HL _). intros k j Hk Hj He Hx Hd. cbv beta. destruct (HS k Hk) as (S2 & S3).
      apply (tends_mult F Fimp Fand Ftrue); [apply (tends_mult F Fimp Fand Ftrue)|apply (tends_sgn F Fimp Fand Ftrue); assumption]; [exact Tmu|apply (tends_sgn F Fimp Fand Ftrue); auto].
    - (* Ang *) destruct HL as ((LE & LY) & L0 & LP0 & LP & LR & LM). pose proof (Tro (2 / 10000)) as T1. pose proof (Ta (95 / 100)) as T2.
      apply (cont_scheme (fun k => tends (fun i => m i k) (M k) /\ forall j, (j < n)%nat -> tends (fun i => phi i k j) (PHI k j))); auto.
      + refine (Fimp _ _ _ HF); intros i P; exact (proj1 (proj1 P)).
      + refine (Fimp _ _ _ HF); intros i P; exact (proj2 (proj1 P)).
      + split.
        * rewrite L0. eapply (tends_ev F Fimp Fand); [refine (Fimp _ _ _ HF); intros i (_ & P & _); exact P|]. exact Tmu.
        * intros j Hj. rewrite LP0 by exact Hj. apply (tends_ev F Fimp Fand _ (fun _ => 0)); [refine (Fimp _ _ _ HF); intros i (_ & _ & P & _); exact (P j Hj)|apply (tends_const F Fimp Ftrue)].
      + intros k Hk (Hm & Hp) He Hw. pose proof (He k (le_n k)) as Hek. pose proof (Be k Hk He) as Hbe.
        assert (Hp' : forall j, (j < n)%nat -> tends (fun i => phi i (S k) j) (PHI (S k) j)).
        { intros j Hj. rewrite LP by assumption. eapply (tends_ev F Fimp Fand); [refine (Fimp _ _ _ HF); intros i (_ & _ & _ & P & _); exact (P k j Hk Hj)|]. cbv beta.
          pose proof (Hp j Hj). pose proof (Bx k j Hk Hj). repeat td. }
        assert (Db : tends (fun i => dotn n (vbefore (x i) k) (phi i (S k))) (dotn n (vbefore X k) (PHI (S k)))) by (apply tends_dotn; auto).
        assert (Hm' : tends (fun i => m i (S k)) (M (S k))).
        { rewrite LR by exact Hk. eapply (tends_ev F Fimp Fand); [refine (Fimp _ _ _ HF); intros i (_ & _ & _ & _ & P & _); exact (P k Hk)|]. cbv beta. repeat td. }
        split; [split; assumption|]. intros j Hj. rewrite LM by assumption. pose proof (Hw j Hj). pose proof (Tx k j Hk Hj).
        eapply (tends_ev F Fimp Fand); [refine (Fimp _ _ _ HF); intros i (_ & _ & _ & _ & _ & P); exact (P k j Hk Hj)|]. cbv beta. repeat td.
    - (* Benveniste *) destruct HL as ((LE & LY) & L0 & LP0 & LP & LR & LM). pose proof (Tro (1 / 10)) as T1.
      apply (cont_scheme (fun k => tends (fun i => m i k) (M k) /\ forall j, (j < n)%nat -> tends (fun i => phi i k j) (PHI k j))); auto.
      + refine (Fimp _ _ _ HF); intros i P; exact (proj1 (proj1 P)).
      + refine (Fimp _ _ _ HF); intros i P; exact (proj2 (proj1 P)).
      + split.
        * rewrite L0. eapply (tends_ev F Fimp Fand); [refine (Fimp _ _ _ HF); intros i (_ & P & _); exact P|]. exact Tmu.
        * intros j Hj. rewrite LP0 by exact Hj. apply (tends_ev F Fimp Fand _ (fun _ => 0)); [refine (Fimp _ _ _ HF); intros i (_ & _ & P & _); exact (P j Hj)|apply (tends_const F Fimp Ftrue)].
      + intros k Hk (Hm & Hp) He Hw. pose proof (He k (le_n k)) as Hek. pose proof (Be k Hk He) as Hbe.
        assert (Da : tends (fun i => dotn n (vbefore (x i) k) (phi i k)) (dotn n (vbefore X k) (PHI k))) by (apply tends_dotn; auto).
        assert (Hp' : forall j, (j < n)%nat -> tends (fun i => phi i (S k) j) (PHI (S k) j)).
        { intros j Hj. rewrite LP by assumption. eapply (tends_ev F Fimp Fand); [refine (Fimp _ _ _ HF); intros i (_ & _ & _ & P & _); exact (P k j Hk Hj)|]. cbv beta.
          pose proof (Hp j Hj). pose proof (Bx k j Hk Hj). repeat td. }
        assert (Db : tends (fun i => dotn n (vbefore (x i) k) (phi i (S k))) (dotn n (vbefore X k) (PHI (S k)))) by (apply tends_dotn; auto).
        assert (Hm' : tends (fun i => m i (S k)) (M (S k))).
        { rewrite LR by exact Hk. eapply (tends_ev F Fimp Fand); [refine (Fimp _ _ _ HF); intros i (_ & _ & _ & _ & P & _); exact (P k Hk)|]. cbv beta. repeat td. }
        split; [split; assumption|]. intros j Hj. rewrite LM by assumption. pose proof (Hw j Hj). pose proof (Tx k j Hk Hj).
        eapply (tends_ev F Fimp Fand); [refine (Fimp _ _ _ HF); intros i (_ & _ & _ & _ & _ & P); exact (P k j Hk Hj)|]. cbv beta. repeat td.
    - (* Mathews *) destruct HL as ((LE & LY) & L0 & LR & LM). pose proof (Tro (1 / 10)) as T1.
      apply (cont_scheme (fun k => tends (fun i => m i k) (M k))); auto.
      + refine (Fimp _ _ _ HF); intros i P; exact (proj1 (proj1 P)).
      + refine (Fimp _ _ _ HF); intros i P; exact (proj2 (proj1 P)).
      + rewrite L0. eapply (tends_ev F Fimp Fand); [refine (Fimp _ _ _ HF); intros i (_ & P & _); exact P|]. exact Tmu.
      + intros k Hk Hm He Hw. pose proof (He k (le_n k)) as Hek. pose proof (Be k Hk He) as Hbe.
        assert (Db : tends (fun i => dotn n (vbefore (x i) k) (x i k)) (dotn n (vbefore X k) (X k))) by (apply tends_dotn; auto).
        assert (Hm' : tends (fun i => m i (S k)) (M (S k))).
        { rewrite LR by exact Hk. eapply (tends_ev F Fimp Fand); [refine (Fimp _ _ _ HF); intros i (_ & _ & P & _); exact (P k Hk)|]. cbv beta. repeat td. }
        split; [exact Hm'|]. intros j Hj. rewrite LM by assumption. pose proof (Hw j Hj). pose proof (Tx k j Hk Hj).
        eapply (tends_ev F Fimp Fand); [refine (Fimp _ _ _ HF); intros i (_ & _ & _ & P); exact (P k j Hk Hj)|]. cbv beta. repeat td.
  Qed.
End Cont.

(** ** Specification: closeness of two filters, and of two data sets *)
Definition near (del a b : R) : Prop := Rabs (a - b) < del.
Definition near_opt (del : R) (a b : option R) : Prop :=
  match a, b with Some u, Some v => near del u v | None, None => True | _, _ => False end.
(** the same integer settings, and every real setting given in both or in neither *)
Definition near_settings (del : R) (kw kw' : kwargs R) : Prop :=
  kw_n kw' = kw_n kw /\ kw_order kw' = kw_order kw /\ kw_mem kw' = kw_mem kw /\
  near_opt del (kw_mu kw') (kw_mu kw) /\ near_opt del (kw_eps kw') (kw_eps kw) /\ near_opt del (kw_ro kw') (kw_ro kw) /\
  near_opt del (kw_a kw') (kw_a kw) /\ near_opt del (kw_lambd kw') (kw_lambd kw) /\ near_opt del (kw_alpha kw') (kw_alpha kw) /\
  near_opt del (kw_ifc kw') (kw_ifc kw).
Definition near_data (n : nat) (del : R) (d' : rvec) (x' : list rvec) (d : rvec) (x : list rvec) : Prop :=
  length x' = length x /\
  forall k, (k < length x)%nat -> near del (nth k d' 0) (nth k d 0) /\ forall i, (i < n)%nat -> near del (nth i (nth k x' []) 0) (nth i (nth k x []) 0).
(** two runs with close outputs, errors, weight histories and final weights *)
Definition near_results (n N : nat) (del : R) (y' e' : rvec) (w' : list rvec) (wf' : rvec) (y e : rvec) (w : list rvec) (wf : rvec) : Prop :=
  (forall k, (k < N)%nat -> near del (nth k y' 0) (nth k y 0) /\ near del (nth k e' 0) (nth k e 0)) /\
  forall k i, (k <= N)%nat -> (i < n)%nat -> near del (nth i (wrow w' wf' k) 0) (nth i (wrow w wf k) 0).

Lemma near_par del a b z : 0 < del -> near_opt del a b -> Rabs (par a z - par b z) < del.
Proof. intros Hd H. destruct a, b; cbn in *; try contradiction; [exact H|]. rewrite Rminus_diag_eq, Rabs_R0 by reflexivity. exact Hd. Qed.

Record point : Type := mkPt { p_kw : kwargs R; p_d : nat -> R; p_x : nat -> nat -> R; p_y : nat -> R; p_e : nat -> R; p_W : nat -> nat -> R;
  p_m : nat -> R; p_phi : nat -> nat -> R; p_G : nat -> nat -> nat -> R }.

Lemma finite_min (P : nat -> R -> Prop) N : (forall k a b, a <= b -> P k b -> P k a) -> (forall k, (k < N)%nat -> exists del, 0 < del /\ P k del) ->
  exists del, 0 < del /\ forall k, (k < N)%nat -> P k del.
Proof.
  intros Hm. induction N as [|N IH]; intros H; [exists 1; split; [lra|intros; lia]|].
  destruct (IH ltac:(intros; apply H; lia)) as (d1 & P1 & H1). destruct (H N ltac:(lia)) as (d2 & P2 & H2).
  exists (Rmin d1 d2). split; [apply Rmin_glb_lt; assumption|]. intros k Hk. destruct (Nat.eq_dec k N) as [->|].
  - apply (Hm _ _ d2); [apply Rmin_r|exact H2].
  - apply (Hm _ _ d1); [apply Rmin_l|apply H1; lia].
Qed.

Section Runs.
  Variable solve : list rvec -> list rvec -> option (list rvec).
  #[local] Hint Extern 0 (Num R) => exact (RNum solve) : typeclass_instances.
  Notation obj := (obj R).

  (** *** C110: small changes have small effects *)
  Theorem C110_continuous : forall rng c (kw : kwargs R) n (o o1 : obj) d x y e w,
    rng_ok rng -> sane_kw kw -> kw_n kw = Some (Z.of_nat n) -> new_filter rng c kw = Ok o ->
    (c = KAP -> good_solver solve) -> (c = KOCNLMS -> kw_mem kw <> Some 1%nat) ->
    rows_of n x -> run d x o = (o1, Ok (y, e, w)) ->
    smooth c kw n (length x) (fun k i => nth i (nth k x []) 0) (fun k => nth k e 0) ->
    forall eps, 0 < eps -> exists del, 0 < del /\ forall rng' (kw' : kwargs R) (o' o1' : obj) d' x' y' e' w',
      rng_ok rng' -> sane_kw kw' -> new_filter rng' c kw' = Ok o' ->
      near_settings del kw kw' -> (forall i, (i < n)%nat -> near del (nth i (o_w o') 0) (nth i (o_w o) 0)) ->
      rows_of n x' -> near_data n del d' x' d x -> run d' x' o' = (o1', Ok (y', e', w')) ->
      near_results n (length x) eps y' e' w' (o_w o1') y e w (o_w o1).
  Proof.
    intros rng c kw n o o1 d x y e w Hrng Hkw Hn Ho Hap Hoc Hx HR HS.
    set (N := length x) in *. set (X := fun k i => nth i (nth k x []) 0) in *. set (E := fun k => nth k e 0) in *.
    set (V := fun k i => nth i (wrow w (o_w o1) k) 0). set (D := fun k => nth k d 0). set (Y := fun k => nth k y 0).
    destruct (C65_run_follows_the_recursion solve rng c kw n o o1 d x y e w Hrng Hkw Hn Ho Hap Hoc Hx HR) as (I0 & PB).
    apply published_traced in PB as (M & PHI & GG & HL).
    set (close := fun del (p : point) => traced c (p_kw p) n N (p_d p) (p_x p) (p_y p) (p_e p) (p_W p) (p_m p) (p_phi p) (p_G p) /\
      near_settings del kw (p_kw p) /\ (forall j, (j < n)%nat -> near del (p_W p 0%nat j) (V 0%nat j)) /\
      forall k, (k < N)%nat -> near del (p_d p k) (D k) /\ forall j, (j < n)%nat -> near del (p_x p k j) (X k j)).
    set (F := fun P : point -> Prop => exists del, 0 < del /\ forall p, close del p -> P p).
    assert (mono : forall a b p, a <= b -> close a p -> close b p).
    { assert (nm : forall a b u v, a <= b -> near a u v -> near b u v) by (unfold near; intros; lra).
      assert (no : forall a b u v, a <= b -> near_opt a u v -> near_opt b u v) by (intros a b [u|] [v|] H; cbn; try tauto; eauto using nm).
      intros a b p Hab (H1 & H2 & H3 & H4). split; [exact H1|]. split; [|split; [intros; eauto using nm|intros k Hk; destruct (H4 k Hk); split; [|intros]; eauto using nm]].
      unfold near_settings in *. decompose [and] H2. repeat split; eauto using no. }
    assert (Fimp : forall P Q : point -> Prop, (forall i, P i -> Q i) -> F P -> F Q).
    { intros P Q H (del & Hd & HP). exists del. split; [exact Hd|]. auto. }
    assert (Fand : forall P Q : point -> Prop, F P -> F Q -> F (fun i => P i /\ Q i)).
    { intros P Q (d1 & Hd1 & H1) (d2 & Hd2 & H2). exists (Rmin d1 d2). split; [apply Rmin_glb_lt; assumption|]. intros p Hp.
      split; [apply H1; apply (mono (Rmin d1 d2)); [apply Rmin_l|exact Hp]|apply H2; apply (mono (Rmin d1 d2)); [apply Rmin_r|exact Hp]]. }
    assert (Ftrue : F (fun _ => True)) by (exists 1; split; [lra|auto]).
    assert (Fc : forall f l, (forall del p, 0 < del -> close del p -> near del (f p) l) -> tends F f l).
    { intros f l H eps He. exists eps. split; [exact He|]. intros p Hp. exact (H eps p He Hp). }
    assert (Fs : forall P : point -> Prop, (forall del p, close del p -> P p) -> F P) by (intros P H; exists 1; split; [lra|intros p Hp; apply (H 1 p Hp)]).
    destruct (continuous F Fimp Fand Ftrue c n N p_kw p_d p_x p_y p_e p_W p_m p_phi p_G kw D X Y E V M PHI GG) as (C1 & C2); auto.
    - apply Fc. intros del p Hd Hp. destruct Hp as (_ & H & _). unfold near_settings in H. decompose [and] H. destruct c; apply near_par; assumption.
    - intros z. apply Fc. intros del p Hd Hp. destruct Hp as (_ & H & _). unfold near_settings in H. decompose [and] H. apply near_par; assumption.
    - intros z. apply Fc. intros del p Hd Hp. destruct Hp as (_ & H & _). unfold near_settings in H. decompose [and] H. apply near_par; assumption.
    - intros z. apply Fc. intros del p Hd Hp. destruct Hp as (_ & H & _). unfold near_settings in H. decompose [and] H. apply near_par; assumption.
    - intros z. apply Fc. intros del p Hd Hp. destruct Hp as (_ & H & _). unfold near_settings in H. decompose [and] H. apply near_par; assumption.
    - intros z. apply Fc. intros del p Hd Hp. destruct Hp as (_ & H & _). unfold near_settings in H. decompose [and] H. apply near_par; assumption.
    - intros z. apply Fc. intros del p Hd Hp. destruct Hp as (_ & H & _). unfold near_settings in H. decompose [and] H. apply near_par; assumption.
    - apply Fs. intros del p Hp. destruct Hp as (_ & H & _). apply H.
    - apply Fs. intros del p Hp. destruct Hp as (_ & H & _). apply H.
    - intros k Hk. apply Fc. intros del p Hd Hp. destruct Hp as (_ & _ & _ & H). apply H; exact Hk.
    - intros k j Hk Hj. apply Fc. intros del p Hd Hp. destruct Hp as (_ & _ & _ & H). apply (H k Hk); exact Hj.
    - intros j Hj. apply Fc. intros del p Hd Hp. destruct Hp as (_ & _ & H & _). apply H; exact Hj.
    - apply Fs. intros del p Hp. apply Hp.
    - intros eps He.
      destruct (finite_min (fun k del => forall p, close del p -> near eps (p_y p k) (Y k) /\ near eps (p_e p k) (E k)) N) as (d1 & Hd1 & K1).
      { intros k a b Hab H p Hp. apply H. apply (mono a); assumption. }
      { intros k Hk. destruct (C1 k Hk) as (A & B). destruct (Fand _ _ (A eps He) (B eps He)) as (del & Hd & H). exists del. split; [exact Hd|exact H]. }
      destruct (finite_min (fun k del => forall p, close del p -> forall j, (j < n)%nat -> near eps (p_W p k j) (V k j)) (S N)) as (d2 & Hd2 & K2).
      { intros k a b Hab H p Hp. apply H. apply (mono a); assumption. }
      { intros k Hk. destruct (finite_min (fun j del => forall p, close del p -> near eps (p_W p k j) (V k j)) n) as (d3 & Hd3 & K3).
        - intros j a b Hab H p Hp. apply H. apply (mono a); assumption.
        - intros j Hj. destruct (C2 k j ltac:(lia) Hj eps He) as (del & Hd & H). exists del. split; [exact Hd|exact H].
        - exists d3. split; [exact Hd3|]. intros p Hp j Hj. apply K3; assumption. }
      exists (Rmin d1 d2). split; [apply Rmin_glb_lt; assumption|].
      intros rng' kw' o' o1' d' x' y' e' w' Hrng' Hkw' Ho' Hset Hw0 Hx' (Hlen & Hdat) HR'.
      assert (Hn' : kw_n kw' = Some (Z.of_nat n)) by (rewrite (proj1 Hset); exact Hn).
      assert (Hoc' : c = KOCNLMS -> kw_mem kw' <> Some 1%nat). { intros Hc. destruct Hset as (_ & _ & -> & _). apply Hoc; exact Hc. }
      destruct (C65_run_follows_the_recursion solve rng' c kw' n o' o1' d' x' y' e' w' Hrng' Hkw' Hn' Ho' Hap Hoc' Hx' HR') as (I0' & PB').
      apply published_traced in PB' as (M' & PHI' & GG' & HL'). rewrite Hlen in HL'. fold N in HL'.
      set (p := mkPt kw' (fun k => nth k d' 0) (fun k i => nth i (nth k x' []) 0) (fun k => nth k y' 0) (fun k => nth k e' 0) (fun k i => nth i (wrow w' (o_w o1') k) 0) M' PHI' GG').
      assert (Hp : close (Rmin d1 d2) p).
      { split; [exact HL'|]. split; [exact Hset|]. split; [|exact Hdat]. intros j Hj. cbn [p p_W]. unfold V, wrow. rewrite I0, I0'. apply Hw0; exact Hj. }
      split.
      + intros k Hk. exact (K1 k Hk p (mono _ _ p (Rmin_l d1 d2) Hp)).
      + intros k i Hk Hi. exact (K2 k ltac:(lia) p (mono _ _ p (Rmin_r d1 d2) Hp) i Hi).
  Qed.

  Lemma one_step n (o : obj) d x dw i : reachable n o -> length x = n -> (i < n)%nat ->
    textbook (o_ext o) (o_mu o) (d - Rdot (o_w o) x) x = Some dw -> nth i (o_w (fst (adapt d x o))) 0 = nth i (o_w o) 0 + nth i dw 0.
  Proof.
    intros Hr Lx Hi Ht. assert (Lw : length (o_w o) = n) by (apply reachable_wf; exact Hr).
    rewrite (adapt_textbook solve o d x dw ltac:(congruence) Ht). cbn [fst set_w o_w].
    apply nth_vadd. rewrite (textbook_length _ _ _ _ _ Ht). congruence.
  Qed.

  (** *** where there are jumps: a target that the weights already explain *)
  Theorem C110_sign_jump : forall n (o : obj) x d gam i, reachable n o -> length x = n -> d = Rdot (o_w o) x -> (i < n)%nat -> nth i x 0 <> 0 ->
    (o_ext o = XSSLMS /\ gam = o_mu o) \/ (exists eps, o_ext o = XNSSLMS eps /\ gam = o_mu o / (eps + normsq x)) ->
    nth i (o_w (fst (adapt d x o))) 0 = nth i (o_w o) 0 /\
    forall del, 0 < del -> exists d', near del d' d /\ Rabs (nth i (o_w (fst (adapt d' x o))) 0 - nth i (o_w o) 0) = Rabs gam.
  Proof.
    intros n o x d gam i Hr Lx Hd Hi Hxi Hc.
    assert (MN : forall f : R -> R, f 0 = 0 -> nth i (map f x) 0 = f (nth i x 0)) by (intros f Hf; rewrite <- (map_nth f x 0 i), Hf; reflexivity).
    assert (ST : forall d, nth i (o_w (fst (adapt d x o))) 0 = nth i (o_w o) 0 + gam * Rsgn (nth i x 0) * Rsgn (d - Rdot (o_w o) x)).
    { intros d0. destruct Hc as [(E & ->)|(eps & E & ->)].
      - rewrite (one_step n o d0 x (map (fun a => o_mu o * Rsgn a * Rsgn (d0 - Rdot (o_w o) x)) x) i) by (auto; rewrite E; reflexivity).
        rewrite MN by (rewrite Rsgn_0; ring). reflexivity.
      - rewrite (one_step n o d0 x (map (fun a => o_mu o / (eps + normsq x) * Rsgn a * Rsgn (d0 - Rdot (o_w o) x)) x) i) by (auto; rewrite E; reflexivity).
        rewrite MN by (rewrite Rsgn_0; ring). reflexivity. }
    split; [rewrite ST, Hd, Rminus_diag_eq, Rsgn_0 by reflexivity; ring|].
    intros del Hdel. exists (d + del / 2). split; [unfold near; replace (d + del / 2 - d) with (del / 2) by ring; rewrite Rabs_pos_eq; lra|].
    rewrite ST, Hd. replace (Rdot (o_w o) x + del / 2 - Rdot (o_w o) x) with (del / 2) by ring.
    assert (S1 : Rsgn (del / 2) = 1) by (unfold Rsgn; destruct (Rlt_dec (del / 2) 0); [lra|]; destruct (Rlt_dec 0 (del / 2)); [reflexivity|lra]).
    assert (S2 : Rabs (Rsgn (nth i x 0)) = 1) by (unfold Rsgn; destruct (Rlt_dec (nth i x 0) 0); [rewrite Rabs_left; lra|]; destruct (Rlt_dec 0 (nth i x 0)); [rewrite Rabs_pos_eq; lra|lra]).
    rewrite S1. replace (nth i (o_w o) 0 + gam * Rsgn (nth i x 0) * 1 - nth i (o_w o) 0) with (gam * Rsgn (nth i x 0)) by ring. rewrite Rabs_mult, S2. ring.
  Qed.

  Lemma gmcc_one n (o : obj) x la al i t : reachable n o -> length x = n -> (i < n)%nat -> o_ext o = XGMCC la al -> 0 < t ->
    nth i (o_w (fst (adapt (Rdot (o_w o) x + t) x o))) 0 - nth i (o_w o) 0 = o_mu o * la * al * exp (- la * Rpowf t al) * Rpowf t (al - 1) * nth i x 0.
  Proof.
    intros Hr Lx Hi E Ht. set (e := Rdot (o_w o) x + t - Rdot (o_w o) x). assert (Ee : e = t) by (unfold e; ring).
    rewrite (one_step n o _ x (vsc (o_mu o * la * al * exp (- la * Rpowf (Rabs e) al) * Rpowf (Rabs e) (al - 1) * Rsgn e) x) i) by (auto; rewrite E; reflexivity).
    rewrite nth_vsc. rewrite Ee. rewrite (Rabs_pos_eq t) by lra. assert (S1 : Rsgn t = 1) by (unfold Rsgn; destruct (Rlt_dec t 0); [lra|]; destruct (Rlt_dec 0 t); [reflexivity|lra]).
    rewrite S1. ring.
  Qed.
  (** GMCC with alpha = 1 jumps as well *)
  Theorem C110_GMCC_alpha1_jump : forall n (o : obj) x d la i, reachable n o -> length x = n -> d = Rdot (o_w o) x -> (i < n)%nat -> o_ext o = XGMCC la 1 -> 0 < la ->
    nth i (o_w (fst (adapt d x o))) 0 = nth i (o_w o) 0 /\
    forall del, 0 < del -> exists d', near del d' d /\ Rabs (o_mu o) * la * Rabs (nth i x 0) / 2 <= Rabs (nth i (o_w (fst (adapt d' x o))) 0 - nth i (o_w o) 0).
  Proof.
    intros n o x d la i Hr Lx Hd Hi E Hla. split.
    - rewrite (one_step n o d x (vsc (o_mu o * la * 1 * exp (- la * Rpowf (Rabs (d - Rdot (o_w o) x)) 1) * Rpowf (Rabs (d - Rdot (o_w o) x)) (1 - 1) * Rsgn (d - Rdot (o_w o) x)) x) i) by (auto; rewrite E; reflexivity).
      rewrite nth_vsc, Hd, (Rminus_diag_eq (Rdot (o_w o) x)) by reflexivity. rewrite Rsgn_0. ring.
    - intros del Hdel. set (t := Rmin (del / 2) (/ (2 * la))).
      assert (Ht : 0 < t) by (apply Rmin_glb_lt; [lra|apply Rinv_0_lt_compat; lra]).
      assert (T1 : t <= del / 2) by apply Rmin_l. assert (T2 : t <= / (2 * la)) by apply Rmin_r.
      exists (Rdot (o_w o) x + t). split; [unfold near; rewrite Hd; replace (Rdot (o_w o) x + t - Rdot (o_w o) x) with t by ring; rewrite Rabs_pos_eq; lra|].
      rewrite (gmcc_one n o x la 1 i t Hr Lx Hi E Ht). rewrite (Rpowf_pos t 1), (Rpowf_pos t (1 - 1)), (Rpower_1 t) by exact Ht.
      replace (1 - 1) with 0 by ring. rewrite Rpower_O by exact Ht.
      assert (L : 1 / 2 <= exp (- la * t)).
      { pose proof (exp_ineq1_le (- la * t)) as G. apply (Rmult_le_compat_l (2 * la)) in T2; [|lra]. rewrite Rinv_r in T2 by lra. lra. }
      rewrite !Rabs_mult, (Rabs_pos_eq la), Rabs_R1, (Rabs_pos_eq (exp _)) by (lra || (left; apply exp_pos)).
      assert (P : 0 <= Rabs (o_mu o) * la * Rabs (nth i x 0)) by (repeat apply Rmult_le_pos; try apply Rabs_pos; lra).
      replace (Rabs (o_mu o) * la * 1 * exp (- la * t) * 1 * Rabs (nth i x 0)) with (Rabs (o_mu o) * la * Rabs (nth i x 0) * exp (- la * t)) by ring. nra.
  Qed.
  (** with alpha < 1 an arbitrarily small error moves the weights arbitrarily far *)
  Theorem C110_GMCC_alpha_below_1 : forall n (o : obj) x la al i, reachable n o -> length x = n -> (i < n)%nat -> nth i x 0 <> 0 ->
    o_ext o = XGMCC la al -> 0 < la -> 0 < al < 1 -> o_mu o <> 0 ->
    forall del B, 0 < del -> exists d', near del d' (Rdot (o_w o) x) /\ B < Rabs (nth i (o_w (fst (adapt d' x o))) 0 - nth i (o_w o) 0).
  Proof.
    intros n o x la al i Hr Lx Hi Hxi E Hla Hal Hmu del B0 Hdel. set (B := Rmax B0 1). assert (HB : 1 <= B) by apply Rmax_r. assert (HB0 : B0 <= B) by apply Rmax_l.
    set (C := Rabs (o_mu o) * la * al * exp (- la) * Rabs (nth i x 0)).
    assert (HC : 0 < C) by (unfold C; repeat apply Rmult_lt_0_compat; try apply exp_pos; try apply Rabs_pos_lt; auto; lra).
    set (Lg := B / C / (1 - al)). set (t := Rmin (del / 2) (Rmin 1 (exp (- Lg)))).
    assert (Ht : 0 < t) by (apply Rmin_glb_lt; [lra|apply Rmin_glb_lt; [lra|apply exp_pos]]).
    assert (T1 : t <= del / 2) by apply Rmin_l. assert (T2 : t <= 1) by (eapply Rle_trans; [apply Rmin_r|apply Rmin_l]).
    assert (T3 : t <= exp (- Lg)) by (eapply Rle_trans; [apply Rmin_r|apply Rmin_r]).
    exists (Rdot (o_w o) x + t). split; [unfold near; replace (Rdot (o_w o) x + t - Rdot (o_w o) x) with t by ring; rewrite Rabs_pos_eq; lra|].
    rewrite (gmcc_one n o x la al i t Hr Lx Hi E Ht). rewrite !Rpowf_pos by exact Ht.
    assert (L0 : ln t <= - Lg) by (rewrite <- (ln_exp (- Lg)); destruct T3 as [T3| ->]; [left; apply ln_increasing; assumption|right; reflexivity]).
    assert (L1 : B / C < Rpower t (al - 1)).
    { unfold Rpower. apply Rlt_le_trans with (1 + (al - 1) * ln t); [|apply exp_ineq1_le].
      assert (EL : (1 - al) * Lg = B / C) by (unfold Lg; field; lra). nra. }
    assert (L2 : Rpower t al <= 1). { unfold Rpower. rewrite <- exp_0. assert (ln t <= 0) by (rewrite <- ln_1; destruct T2 as [T2| ->]; [left; apply ln_increasing; assumption|right; reflexivity]).
      destruct (Req_dec (al * ln t) 0) as [->|]; [lra|]. left; apply exp_increasing. nra. }
    assert (L3 : exp (- la) <= exp (- la * Rpower t al)). { destruct (Req_dec (Rpower t al) 1) as [->|]; [right; f_equal; ring|]. left. apply exp_increasing. nra. }
    rewrite !Rabs_mult, (Rabs_pos_eq la), (Rabs_pos_eq al), (Rabs_pos_eq (exp _)), (Rabs_pos_eq (Rpower t (al - 1))) by (lra || (left; apply exp_pos)).
    apply Rle_lt_trans with B; [exact HB0|]. replace B with (C * (B / C)) by (field; lra).
    apply Rlt_le_trans with (C * Rpower t (al - 1)); [apply Rmult_lt_compat_l; assumption|].
    assert (P0 : 0 < Rabs (o_mu o) * la * al) by (repeat apply Rmult_lt_0_compat; try apply Rabs_pos_lt; auto; lra).
    assert (P1 : 0 < Rpower t (al - 1)) by apply exp_pos. pose proof (Rabs_pos (nth i x 0)) as P2.
    unfold C. assert (Z : Rabs (o_mu o) * la * al * exp (- la) <= Rabs (o_mu o) * la * al * exp (- la * Rpower t al)) by (apply Rmult_le_compat_l; lra).
    apply (Rmult_le_compat_r (Rpower t (al - 1) * Rabs (nth i x 0))) in Z; [lra|apply Rmult_le_pos; lra].
  Qed.

  (** ** Limits between the classes *)
  (** the gain of a class that moves the weights along the input, as a function of a small number s, the error and the input *)
  Definition along (s0 : R -> R -> rvec -> R) (s : R) (o : obj) : Prop := forall e v, textbook (o_ext o) (o_mu o) e v = Some (vsc (s0 s e v) v).
  (** as s goes to 0 and the error to l, the gain goes to M * l *)
  Definition gain_limit (g : R -> R -> rvec -> R) (M : R) (v : rvec) : Prop := forall l eps, 0 < eps -> exists del, 0 < del /\
    forall s e, 0 < s < del -> Rabs (e - l) < del -> Rabs (g s e v - M * l) < eps.

  Record pt2 : Type := mkPt2 { q_s : R; q_y : nat -> R; q_e : nat -> R; q_W : nat -> nat -> R }.

  Lemma run_along n (o o1 : obj) d x y e w (g : R -> rvec -> R) : reachable n o -> (forall e v, textbook (o_ext o) (o_mu o) e v = Some (vsc (g e v) v)) ->
    rows_of n x -> run d x o = (o1, Ok (y, e, w)) ->
    (forall i, nth i (wrow w (o_w o1) 0) 0 = nth i (o_w o) 0) /\
    forall k, (k < length x)%nat -> nth k e 0 = nth k d 0 - nth k y 0 /\ nth k y 0 = dotn n (fun i => nth i (wrow w (o_w o1) k) 0) (fun i => nth i (nth k x []) 0) /\
      forall i, (i < n)%nat -> nth i (wrow w (o_w o1) (S k)) 0 = nth i (wrow w (o_w o1) k) 0 + g (nth k e 0) (nth k x []) * nth i (nth k x []) 0.
  Proof.
    intros Hr Hg Hx HR. pose proof (reachable_wf n o Hr) as Hwf.
    assert (Hne : x <> []) by (intros ->; destruct d; [discriminate HR|rewrite run_bad_length in HR by discriminate; discriminate HR]).
    split.
    - intros i. assert (0 < length x)%nat by (destruct x; [contradiction|cbn; lia]).
      destruct (run_step solve n o o1 d x y e w 0%nat Hwf Hx HR H) as (s & s' & _ & _ & Es & _ & _ & Ew & _). rewrite <- Ew, Es. reflexivity.
    - intros k Hk. destruct (run_textbook solve n o o1 d x y e w k Hwf Hx ltac:(intros e0 v0; rewrite Hg; discriminate) HR Hk) as (dw & Hdw & Hw & Hy & He & L1 & L2).
      split; [exact He|]. split; [rewrite Hy; unfold dotn; rewrite (Rdot_sumn n) by assumption; reflexivity|].
      intros i Hi. rewrite Hg in Hdw. injection Hdw as <-. rewrite Hw, nth_vadd by (rewrite vsc_length; congruence). rewrite nth_vsc. reflexivity.
  Qed.

  Lemma limit_of_gains (g : R -> R -> rvec -> R) n (o o1 : obj) d x y e w : reachable n o -> o_ext o = XLMS -> rows_of n x -> run d x o = (o1, Ok (y, e, w)) ->
    (forall v, gain_limit g (o_mu o) v) ->
    forall eps, 0 < eps -> exists del, 0 < del /\ forall s (o' o1' : obj) y' e' w', 0 < s < del -> reachable n o' -> along g s o' -> o_w o' = o_w o ->
      run d x o' = (o1', Ok (y', e', w')) -> near_results n (length x) eps y' e' w' (o_w o1') y e w (o_w o1).
  Proof.
    intros Hr Hext Hx HR Hg. set (N := length x). set (X := fun k i => nth i (nth k x []) 0). set (D := fun k => nth k d 0).
    set (Y := fun k => nth k y 0). set (E := fun k => nth k e 0). set (V := fun k i => nth i (wrow w (o_w o1) k) 0).
    destruct (run_along n o o1 d x y e w (fun e v => o_mu o * e) Hr ltac:(intros; rewrite Hext; reflexivity) Hx HR) as (L0 & LS).
    set (close := fun del (p : pt2) => 0 < q_s p < del /\ (forall i, q_W p 0%nat i = V 0%nat i) /\
      forall k, (k < N)%nat -> q_e p k = D k - q_y p k /\ q_y p k = dotn n (q_W p k) (X k) /\
        forall i, (i < n)%nat -> q_W p (S k) i = q_W p k i + g (q_s p) (q_e p k) (nth k x []) * X k i).
    set (F := fun P : pt2 -> Prop => exists del, 0 < del /\ forall p, close del p -> P p).
    assert (mono : forall a b p, a <= b -> close a p -> close b p) by (intros a b p Hab (H1 & H2); split; [lra|exact H2]).
    assert (Fimp : forall P Q : pt2 -> Prop, (forall i, P i -> Q i) -> F P -> F Q).
    { intros P Q H (del & Hd & HP). exists del. split; [exact Hd|]. auto. }
    assert (Fand : forall P Q : pt2 -> Prop, F P -> F Q -> F (fun i => P i /\ Q i)).
    { intros P Q (d1 & Hd1 & H1) (d2 & Hd2 & H2). exists (Rmin d1 d2). split; [apply Rmin_glb_lt; assumption|]. intros p Hp.
      split; [apply H1; apply (mono (Rmin d1 d2)); [apply Rmin_l|exact Hp]|apply H2; apply (mono (Rmin d1 d2)); [apply Rmin_r|exact Hp]]. }
    assert (Ftrue : F (fun _ => True)) by (exists 1; split; [lra|auto]).
    assert (Fs : forall P : pt2 -> Prop, (forall del p, close del p -> P p) -> F P) by (intros P H; exists 1; split; [lra|intros p Hp; apply (H 1 p Hp)]).
    assert (C : (forall k, (k < N)%nat -> tends F (fun p => q_y p k) (Y k) /\ tends F (fun p => q_e p k) (E k)) /\ (forall k j, (k <= N)%nat -> (j < n)%nat -> tends F (fun p => q_W p k j) (V k j))).
    { apply (cont_scheme F Fimp Fand Ftrue n N (fun _ => D) (fun _ => X) q_y q_e q_W D X Y E V) with (Q := fun _ => True); auto.
      - intros. apply (tends_const F Fimp Ftrue).
      - intros. apply (tends_const F Fimp Ftrue).
      - intros j Hj. apply (tends_ev F Fimp Fand _ (fun _ => V 0%nat j)); [|apply (tends_const F Fimp Ftrue)]. apply Fs. intros del p (_ & H & _). apply H.
      - apply Fs. intros del p (_ & _ & H) k Hk. apply H; exact Hk.
      - apply Fs. intros del p (_ & _ & H) k Hk. apply H; exact Hk.
      - intros k Hk. apply LS; exact Hk.
      - intros k Hk. apply LS; exact Hk.
      - intros k Hk _ He Hw. split; [exact Logic.I|]. intros j Hj. unfold V at 1. destruct (LS k Hk) as (_ & _ & LM). rewrite LM by exact Hj.
        apply (tends_ev F Fimp Fand _ (fun p => q_W p k j + g (q_s p) (q_e p k) (nth k x []) * X k j)).
        { apply Fs. intros del p (_ & _ & H). apply (H k Hk); exact Hj. }
        apply (tends_plus F Fimp Fand); [apply Hw; exact Hj|]. apply (tends_mult F Fimp Fand Ftrue); [|apply (tends_const F Fimp Ftrue)].
        intros eps Heps. destruct (Hg (nth k x []) (E k) eps Heps) as (del & Hdel & H).
        assert (A : F (fun p => 0 < q_s p < del)) by (exists del; split; [exact Hdel|intros p Hp; apply Hp]).
        apply (F2 F Fimp Fand _ _ _ A (He k (le_n k) del Hdel)). intros p Hp1 Hp2. apply H; assumption. }
    destruct C as (C1 & C2). intros eps He.
    destruct (finite_min (fun k del => forall p, close del p -> near eps (q_y p k) (Y k) /\ near eps (q_e p k) (E k)) N) as (d1 & Hd1 & K1).
    { intros k a b Hab H p Hp. apply H. apply (mono a); assumption. }
    { intros k Hk. destruct (C1 k Hk) as (A & B). destruct (Fand _ _ (A eps He) (B eps He)) as (del & Hd & H). exists del. split; [exact Hd|exact H]. }
    destruct (finite_min (fun k del => forall p, close del p -> forall j, (j < n)%nat -> near eps (q_W p k j) (V k j)) (S N)) as (d2 & Hd2 & K2).
    { intros k a b Hab H p Hp. apply H. apply (mono a); assumption. }
    { intros k Hk. destruct (finite_min (fun j del => forall p, close del p -> near eps (q_W p k j) (V k j)) n) as (d3 & Hd3 & K3).
      - intros j a b Hab H p Hp. apply H. apply (mono a); assumption.
      - intros j Hj. destruct (C2 k j ltac:(lia) Hj eps He) as (del & Hd & H). exists del. split; [exact Hd|exact H].
      - exists d3. split; [exact Hd3|]. intros p Hp j Hj. apply K3; assumption. }
    exists (Rmin d1 d2). split; [apply Rmin_glb_lt; assumption|]. intros s o' o1' y' e' w' Hs Hr' Hal Hw' HR'.
    destruct (run_along n o' o1' d x y' e' w' (g s) Hr' Hal Hx HR') as (L0' & LS').
    set (p := mkPt2 s (fun k => nth k y' 0) (fun k => nth k e' 0) (fun k i => nth i (wrow w' (o_w o1') k) 0)).
    assert (Hp : close (Rmin d1 d2) p).
    { split; [exact Hs|]. split; [intros i; unfold V; cbn [p q_W]; rewrite L0, L0', Hw'; reflexivity|exact LS']. }
    split.
    - intros k Hk. exact (K1 k Hk p (mono _ _ p (Rmin_l d1 d2) Hp)).
    - intros k i Hk Hi. exact (K2 k ltac:(lia) p (mono _ _ p (Rmin_r d1 d2) Hp) i Hi).
  Qed.

  Lemma tanh_close u : Rabs (tanh u - u) <= 2 * u ^ 2.
  Proof.
    assert (P : forall u, 0 <= u -> 0 <= u - tanh u <= 2 * u ^ 2).
    { clear u. intros u Hu. split; [pose proof (tanh_le u Hu); lra|]. rewrite tanh_exp.
      assert (X1 : 1 + 2 * u <= exp (2 * u)) by apply exp_ineq1_le.
      assert (X2 : exp u * exp (- u) = 1) by (rewrite <- exp_plus, Rplus_opp_r; apply exp_0).
      assert (X3 : exp u * exp u = exp (2 * u)) by (rewrite <- exp_plus; f_equal; ring).
      pose proof (exp_pos u) as P1. pose proof (exp_pos (- u)) as P2. set (a := exp u) in *. set (b := exp (- u)) in *. set (c := exp (2 * u)) in *.
      replace ((a - b) / (a + b)) with ((c - 1) / (c + 1)).
      2: { rewrite <- X3. replace 1 with (a * b) by exact X2. field. split; nra. }
      assert (X4 : u - (c - 1) / (c + 1) = (u * (c + 1) - (c - 1)) / (c + 1)) by (field; lra). rewrite X4.
      apply Rmult_le_reg_r with (c + 1); [lra|]. unfold Rdiv. rewrite Rmult_assoc, Rinv_l, Rmult_1_r by lra.
      assert (X5 : 0 <= (c - 1 - 2 * u) * (2 * u ^ 2 - u + 1)) by (apply Rmult_le_pos; [lra|pose proof (pow2_ge_0 (u - 1 / 4)); lra]).
      pose proof (pow_le u 3 Hu). pose proof (pow_le u 2 Hu). nra. }
    destruct (Rle_dec 0 u) as [H|H]; [destruct (P u H); rewrite Rabs_left1; lra|].
    destruct (P (- u) ltac:(lra)) as (P1 & P2). rewrite tanh_opp in P1, P2. rewrite Rabs_pos_eq by lra. replace (u ^ 2) with ((- u) ^ 2) by ring. lra.
  Qed.
  (** a gain within s * K * e^2 * (1 + ...) of M * e *)
  Lemma gain_limit_bound g M v K : 0 <= K -> (forall s e, 0 < s < 1 -> Rabs (g s e v - M * e) <= s * K * (Rabs e + Rabs e ^ 3)) -> gain_limit g M v.
  Proof.
    intros HK H l eps He. set (L := Rabs l + 1). assert (HL : 1 <= L) by (unfold L; pose proof (Rabs_pos l); lra).
    set (A := K * (L + L ^ 3) + Rabs M + 1). assert (P3 : 0 < L ^ 3) by (apply pow_lt; lra).
    assert (PK : 0 <= K * (L + L ^ 3)) by (apply Rmult_le_pos; lra). assert (HA : 1 <= A) by (unfold A; pose proof (Rabs_pos M); lra).
    exists (Rmin 1 (eps / (2 * A))). assert (Q : 0 < eps / (2 * A)) by (apply Rdiv_lt_0_compat; lra).
    split; [apply Rmin_glb_lt; lra|]. intros s e Hs Hel. pose proof (Rmin_l 1 (eps / (2 * A))). pose proof (Rmin_r 1 (eps / (2 * A))).
    assert (Le : Rabs e <= L). { unfold L. pose proof (Rabs_triang (e - l) l) as T. replace (e - l + l) with e in T by ring. lra. }
    pose proof (H s e ltac:(lra)) as B. pose proof (Rabs_pos e) as Pe. assert (E3 : Rabs e ^ 3 <= L ^ 3) by (apply pow_incr; lra).
    replace (g s e v - M * l) with ((g s e v - M * e) + M * (e - l)) by ring.
    eapply Rle_lt_trans; [apply Rabs_triang|]. rewrite Rabs_mult.
    assert (B1 : s * K * (Rabs e + Rabs e ^ 3) <= eps / (2 * A) * (K * (L + L ^ 3))).
    { rewrite Rmult_assoc. apply Rmult_le_compat; try lra; [apply Rmult_le_pos; [exact HK|assert (0 <= Rabs e ^ 3) by (apply pow_le; exact Pe); lra]|]. apply Rmult_le_compat_l; lra. }
    assert (B2 : Rabs M * Rabs (e - l) <= Rabs M * (eps / (2 * A))) by (apply Rmult_le_compat_l; [apply Rabs_pos|lra]).
    assert (B3 : eps / (2 * A) * A = eps / 2) by (field; lra). unfold A in B3 at 2. nra.
  Qed.

  (** *** C110: Llncosh with a small lambda, GMCC with alpha = 2 and a small lambda, and NLMS with a large eps are LMS *)
  Theorem C110_Llncosh_LMS : forall n (o o1 : obj) d x y e w, reachable n o -> o_ext o = XLMS -> rows_of n x -> run d x o = (o1, Ok (y, e, w)) ->
    forall tol, 0 < tol -> exists del, 0 < del /\ forall la (o' o1' : obj) y' e' w', 0 < la < del -> reachable n o' -> o_ext o' = XLlncosh la ->
      o_mu o' = o_mu o / la -> o_w o' = o_w o -> run d x o' = (o1', Ok (y', e', w')) -> near_results n (length x) tol y' e' w' (o_w o1') y e w (o_w o1).
  Proof.
    intros n o o1 d x y e w Hr Hext Hx HR tol Ht.
    destruct (limit_of_gains (fun s e v => o_mu o / s * tanh (s * e)) n o o1 d x y e w Hr Hext Hx HR) with (eps := tol) as (del & Hdel & H).
    - intros v. apply (gain_limit_bound _ _ v (Rabs (o_mu o) * 4)); [pose proof (Rabs_pos (o_mu o)); lra|]. intros s e0 Hs.
      replace (o_mu o / s * tanh (s * e0) - o_mu o * e0) with (o_mu o / s * (tanh (s * e0) - s * e0)) by (field; lra). rewrite Rabs_mult.
      pose proof (tanh_close (s * e0)) as T. unfold Rdiv. rewrite Rabs_mult, (Rabs_pos_eq (/ s)) by (left; apply Rinv_0_lt_compat; lra).
      pose proof (Rabs_pos (o_mu o)) as P1. pose proof (Rabs_pos e0) as P2. assert (Pi : 0 < / s) by (apply Rinv_0_lt_compat; lra).
      apply Rle_trans with (Rabs (o_mu o) * / s * (2 * (s * e0) ^ 2)); [apply Rmult_le_compat_l; [apply Rmult_le_pos; lra|exact T]|].
      replace (Rabs (o_mu o) * / s * (2 * (s * e0) ^ 2)) with (s * Rabs (o_mu o) * (2 * e0 ^ 2)) by (field; lra).
      replace (s * (Rabs (o_mu o) * 4) * (Rabs e0 + Rabs e0 ^ 3)) with (s * Rabs (o_mu o) * (4 * (Rabs e0 + Rabs e0 ^ 3))) by ring.
      apply Rmult_le_compat_l; [apply Rmult_le_pos; lra|]. rewrite <- (pow2_abs e0). set (a := Rabs e0) in *. nra.
    - exact Ht.
    - exists del. split; [exact Hdel|]. intros la o' o1' y' e' w' Hla Hr' Hext' Hmu Hw HR'. apply (H la o' o1' y' e' w' Hla Hr'); auto.
      intros e0 v. rewrite Hext', Hmu. reflexivity.
  Qed.

  Theorem C110_GMCC_LMS : forall n (o o1 : obj) d x y e w, reachable n o -> o_ext o = XLMS -> rows_of n x -> run d x o = (o1, Ok (y, e, w)) ->
    forall tol, 0 < tol -> exists del, 0 < del /\ forall la (o' o1' : obj) y' e' w', 0 < la < del -> reachable n o' -> o_ext o' = XGMCC la 2 ->
      o_mu o' = o_mu o / (2 * la) -> o_w o' = o_w o -> run d x o' = (o1', Ok (y', e', w')) -> near_results n (length x) tol y' e' w' (o_w o1') y e w (o_w o1).
  Proof.
    intros n o o1 d x y e w Hr Hext Hx HR tol Ht.
    destruct (limit_of_gains (fun s e v => o_mu o / (2 * s) * s * 2 * exp (- s * Rpowf (Rabs e) 2) * Rpowf (Rabs e) (2 - 1) * Rsgn e) n o o1 d x y e w Hr Hext Hx HR) with (eps := tol) as (del & Hdel & H).
    - intros v. apply (gain_limit_bound _ _ v (Rabs (o_mu o))); [apply Rabs_pos|]. intros s e0 Hs.
      rewrite Rpowf_2, Rpowf_1 by apply Rabs_pos.
      replace (o_mu o / (2 * s) * s * 2 * exp (- s * (Rabs e0 * Rabs e0)) * Rabs e0 * Rsgn e0 - o_mu o * e0) with (- (o_mu o * e0 * (1 - exp (- s * (Rabs e0 * Rabs e0))))).
      2: { assert (Z : Rabs e0 * Rsgn e0 = e0) by (unfold Rsgn, Rabs; destruct (Rcase_abs e0), (Rlt_dec e0 0), (Rlt_dec 0 e0); lra).
           transitivity (o_mu o / (2 * s) * s * 2 * exp (- s * (Rabs e0 * Rabs e0)) * (Rabs e0 * Rsgn e0) - o_mu o * e0); [rewrite Z; field; lra|ring]. }
      rewrite Rabs_Ropp, !Rabs_mult. set (a := Rabs e0) in *. assert (Pa : 0 <= a) by apply Rabs_pos. pose proof (Rabs_pos (o_mu o)) as P1.
      pose proof (exp_ineq1_le (- s * (a * a))) as X1. assert (X2 : exp (- s * (a * a)) <= 1).
      { rewrite <- exp_0. destruct (Req_dec (- s * (a * a)) 0) as [->|]; [lra|]. left; apply exp_increasing. assert (0 <= s * (a * a)) by (apply Rmult_le_pos; [lra|apply Rmult_le_pos; exact Pa]). lra. }
      rewrite (Rabs_pos_eq (1 - _)) by lra. apply Rle_trans with (Rabs (o_mu o) * a * (s * (a * a))); [apply Rmult_le_compat_l; [apply Rmult_le_pos; assumption|lra]|].
      replace (s * Rabs (o_mu o) * (a + a ^ 3)) with (Rabs (o_mu o) * a * (s * (a * a)) + s * Rabs (o_mu o) * a) by ring.
      assert (0 <= s * Rabs (o_mu o) * a) by (apply Rmult_le_pos; [apply Rmult_le_pos; lra|exact Pa]). lra.
    - exact Ht.
    - exists del. split; [exact Hdel|]. intros la o' o1' y' e' w' Hla Hr' Hext' Hmu Hw HR'. apply (H la o' o1' y' e' w' Hla Hr'); auto.
      intros e0 v. rewrite Hext', Hmu. reflexivity.
  Qed.

  Theorem C110_NLMS_LMS : forall n (o o1 : obj) d x y e w, reachable n o -> o_ext o = XLMS -> rows_of n x -> run d x o = (o1, Ok (y, e, w)) ->
    forall tol, 0 < tol -> exists B, 0 < B /\ forall eps (o' o1' : obj) y' e' w', B < eps -> reachable n o' -> o_ext o' = XNLMS eps ->
      o_mu o' = o_mu o * eps -> o_w o' = o_w o -> run d x o' = (o1', Ok (y', e', w')) -> near_results n (length x) tol y' e' w' (o_w o1') y e w (o_w o1).
  Proof.
    intros n o o1 d x y e w Hr Hext Hx HR tol Ht.
    destruct (limit_of_gains (fun s e v => o_mu o * / s / (/ s + normsq v) * e) n o o1 d x y e w Hr Hext Hx HR) with (eps := tol) as (del & Hdel & H).
    - intros v. pose proof (normsq_nonneg v) as Pv. apply (gain_limit_bound _ _ v (Rabs (o_mu o) * normsq v)); [apply Rmult_le_pos; [apply Rabs_pos|exact Pv]|]. intros s e0 Hs.
      assert (Pd : 0 < 1 + s * normsq v) by (assert (0 <= s * normsq v) by (apply Rmult_le_pos; lra); lra).
      replace (o_mu o * / s / (/ s + normsq v) * e0 - o_mu o * e0) with (- (o_mu o * e0 * (s * normsq v / (1 + s * normsq v)))).
      2: { field. repeat split; lra. }
      rewrite Rabs_Ropp, !Rabs_mult. assert (Q : 0 <= s * normsq v / (1 + s * normsq v) <= s * normsq v).
      { assert (Q0 : 0 <= s * normsq v) by (apply Rmult_le_pos; lra). split; [apply Rmult_le_pos; [exact Q0|left; apply Rinv_0_lt_compat; exact Pd]|].
        apply Rmult_le_reg_r with (1 + s * normsq v); [exact Pd|]. unfold Rdiv. rewrite Rmult_assoc, Rinv_l, Rmult_1_r by lra. nra. }
      rewrite (Rabs_pos_eq (s * normsq v / _)) by apply Q. set (a := Rabs e0) in *. assert (Pa : 0 <= a) by apply Rabs_pos. pose proof (Rabs_pos (o_mu o)) as P1.
      apply Rle_trans with (Rabs (o_mu o) * a * (s * normsq v)); [apply Rmult_le_compat_l; [apply Rmult_le_pos; assumption|apply Q]|].
      replace (s * (Rabs (o_mu o) * normsq v) * (a + a ^ 3)) with (Rabs (o_mu o) * a * (s * normsq v) + s * (Rabs (o_mu o) * normsq v) * a ^ 3) by ring.
      assert (0 <= s * (Rabs (o_mu o) * normsq v) * a ^ 3) by (apply Rmult_le_pos; [apply Rmult_le_pos; [lra|apply Rmult_le_pos; assumption]|apply pow_le; exact Pa]). lra.
    - exact Ht.
    - exists (/ del). split; [apply Rinv_0_lt_compat; exact Hdel|]. intros eps o' o1' y' e' w' Heps Hr' Hext' Hmu Hw HR'.
      assert (Pe : 0 < eps) by (eapply Rlt_trans; [apply Rinv_0_lt_compat; exact Hdel|exact Heps]).
      apply (H (/ eps) o' o1' y' e' w'); auto.
      + split; [apply Rinv_0_lt_compat; exact Pe|]. rewrite <- (Rinv_inv del). apply Rinv_lt_contravar; [|exact Heps]. apply Rmult_lt_0_compat; [apply Rinv_0_lt_compat; exact Hdel|exact Pe].
      + intros e0 v. rewrite Hext', Hmu. cbn [textbook]. rewrite Rinv_inv. reflexivity.
  Qed.
End Runs.

(** ** The hypotheses can be met *)
Example C110_hypotheses : forall c, c <> KSSLMS -> c <> KNSSLMS -> let NT := RNum rsolve in
  exists (o o' : obj R) y e w, new_filter (fun k => repeat 0 k) c (rec_kw c) = Ok o /\ run [1; 2] [[1; 0]; [1; 2]] o = (o', Ok (y, e, w)) /\
    (c = KAP -> good_solver rsolve) /\ (c = KOCNLMS -> kw_mem (rec_kw c) <> Some 1%nat) /\
    smooth c (rec_kw c) 2 2 (fun k i => nth i (nth k [[1; 0]; [1; 2]] []) 0) (fun k => nth k e 0).
Proof.
  intros c H1 H2 NT. destruct (C65_hypotheses c) as (Hrng & Hkw & Hsol & o & o' & y & e & w & Ho & HR).
  exists o, o', y, e, w. split; [exact Ho|]. split; [exact HR|]. split; [auto|]. split; [intros ->; discriminate|].
  assert (Q : forall v, 0 <= dotn 2 v v) by (intros; apply dotn_nonneg).
  destruct c; unfold smooth; try exact Logic.I; try contradiction; cbn [par rec_kw kw_eps kw_alpha kw_ifc kw_ro kw_mu rate].
  - lra.
  - left. lra.
  - destruct (C65_run_follows_the_recursion rsolve (fun k => repeat 0 k) KGNGD (rec_kw KGNGD) 2 o o' [1; 2] [[1; 0]; [1; 2]] y e w Hrng Hkw eq_refl Ho) as (I0 & PB); auto; try discriminate.
    { repeat constructor. }
    assert (W0 : o_w o = [1; 1]) by (injection Ho as <-; reflexivity). destruct PB as ((PE & PY) & _).
    assert (E0 : nth 0 e 0 = 0).
    { rewrite PE by (cbn; lia). rewrite PY by (cbn; lia). unfold dotn. cbn [sumn]. rewrite I0. 
      rewrite W0. cbn [nth]. lra. }
    intros eps Eps0 Eps. 
    assert (Z1 : eps 1%nat = 1) by (rewrite (Eps 0%nat) by lia; rewrite Eps0; cbn [before]; unfold Rdiv; ring).
    assert (Z2 : eps 2%nat = 1) by (rewrite (Eps 1%nat) by lia; rewrite Z1; cbn [before]; rewrite E0; unfold Rdiv; ring).
    intros k Hk. match goal with |- dotn 2 ?v ?v + _ <> 0 => pose proof (Q v) end.
    destruct k as [|[|[|k]]]; [rewrite Eps0|rewrite Z1|rewrite Z2|lia]; lra.
  - intros k _. match goal with |- _ + dotn 2 ?v ?v <> 0 => pose proof (Q v) end. lra.
  - intros k _. match goal with |- _ + dotn 2 ?v ?v <> 0 => pose proof (Q v) end. lra.
  - lra.
  - lra.
Qed.
Example C110_hypotheses_sign : forall c, c = KSSLMS \/ c = KNSSLMS -> let NT := RNum rsolve in
  exists (o o' : obj R) y e w, new_filter (fun k => repeat 0 k) c (rec_kw c) = Ok o /\ run [1] [[1; 2]] o = (o', Ok (y, e, w)) /\
    smooth c (rec_kw c) 2 1 (fun k i => nth i (nth k [[1; 2]] []) 0) (fun k => nth k e 0).
Proof.
  intros c Hc NT. assert (Ho : exists o : obj R, new_filter (fun k => repeat 0 k) c (rec_kw c) = Ok o /\ o_w o = [1; 1] /\ reachable 2 o /\ forall ex, ~ soft_exn o ex).
  { assert (H1 : rng_ok (T := R) (fun k => repeat 0 k)) by (intros k; apply repeat_length).
    assert (H2 : sane_kw (rec_kw c)) by (split; intros m Hm; destruct c; cbn in Hm; try discriminate; injection Hm as <-; lia).
    destruct Hc as [-> | ->]; eexists; (split; [reflexivity|]); (split; [reflexivity|]).
    - split; [apply (reach_new 2 (fun k => repeat 0 k) KSSLMS (rec_kw KSSLMS)); [exact H1|exact H2|reflexivity|reflexivity]|]. intros ex Hs; exact Hs.
    - split; [apply (reach_new 2 (fun k => repeat 0 k) KNSSLMS (rec_kw KNSSLMS)); [exact H1|exact H2|reflexivity|reflexivity]|]. intros ex Hs; exact Hs. }
  destruct Ho as (o & Ho & Hw & Hr & Hse). assert (Hx : rows_of (T := R) 2 [[1; 2]]) by (repeat constructor).
  destruct (run_exists rsolve 2 o [1] [[1; 2]] Hr Hx eq_refl ltac:(discriminate) Hse) as (o' & y & e & w & HR).
  exists o, o', y, e, w. split; [exact Ho|]. split; [exact HR|].
  destruct (run_step rsolve 2 o o' [1] [[1; 2]] y e w 0%nat (reachable_wf 2 o Hr) Hx HR ltac:(cbn; lia)) as (s & s' & _ & _ & Es & _ & _ & _ & _ & Hy & He & _).
  assert (E0 : nth 0 e 0 = -2).
  { rewrite He, Hy, Es. clear - Hc Ho. destruct Hc as [-> | ->]; injection Ho as <-; cbn; lra. }
  pose proof (dotn_nonneg 2 (fun i => nth i [1; 2] 0)).
  destruct Hc as [-> | ->]; unfold smooth; intros k Hk; assert (k = 0%nat) as -> by lia; cbv beta; rewrite E0; cbn [par rec_kw kw_eps nth].
  - split; [lra|]. intros [|[|i]] Hi; cbn; try lra; lia.
  - split; [cbn in *; lra|]. split; [lra|]. intros [|[|i]] Hi; cbn; try lra; lia.
Qed.
