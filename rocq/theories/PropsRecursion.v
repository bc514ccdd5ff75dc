(** C65: what run computes, for each of the fifteen classes, as explicit recursions on numbers (exact real arithmetic). *)
From Coq Require Import Reals Lra Psatz.
From Verif Require Import Py Num Numpy Filters Registry Spec StructProofs RunProofs Reach RVec RFilter Steps RMat PropsRegistry PropsAlgebra PropsStability PropsAP PropsAPConverge PropsOCNLMS.
Open Scope R_scope.

(** ** Specification *)
(** value of a keyword argument, with its documented default *)
Definition par {A} (given : option A) (dflt : A) : A := match given with Some a => a | None => dflt end.

(** the learning rate; LMS, LMF, SSLMS and AP have no default *)
Definition rate (c : kind) (kw : kwargs R) : R :=
  match c with
  | KNLMS | KNLMF | KNSSLMS | KRLS | KOCNLMS => par (kw_mu kw) (1 / 10)
  | KGMCC | KLlncosh => par (kw_mu kw) (1 / 100)
  | KGNGD | KAng | KBenveniste | KMathews => par (kw_mu kw) 1
  | KLMS | KLMF | KSSLMS | KAP => par (kw_mu kw) 0
  end.

Definition dotn (n : nat) (a b : nat -> R) : R := sumn n (fun i => a i * b i).
(** the value one sample earlier, 0 before the first sample *)
Definition before (s : nat -> R) (k : nat) : R := match k with O => 0 | S j => s j end.
Definition vbefore (s : nat -> nat -> R) (k : nat) (i : nat) : R := match k with O => 0 | S j => s j i end.
(** the value j samples earlier, 0 before the first sample *)
Definition ago (s : nat -> R) (k j : nat) : R := if (j <=? k)%nat then s (k - j)%nat else 0.
Definition delta (i j : nat) : R := if (i =? j)%nat then 1 else 0.

(** OCNLMS.  Slot s of a memory with [mem] slots, when sample j is written into slot (2j+1) mod mem, before sample k:
    the latest sample written there, 0 if there is none *)
Fixpoint slot (mem : nat) (v : nat -> R) (k s : nat) : R :=
  match k with
  | O => 0
  | S j => if ((2 * j + 1) mod mem =? s)%nat then v j else slot mem v j s
  end.
(** the offset of the inputs at the c-th reading of the memory m *)
Definition oc_offset_x (mem c : nat) (m : nat -> R) : R :=
  if (c <? mem)%nat then (if (c =? 0)%nat then 0 else sumn (c + 1) m / INR (c + 1)) else sumn mem m / INR mem.
(** the offset of the targets: without the slot the reading index points to *)
Definition oc_offset_d (mem c : nat) (m : nat -> R) : R :=
  if (c <? mem)%nat then (if (c =? 0)%nat then 0 else sumn c m / INR c)
  else (sumn mem m - m (c mod mem)%nat) / INR (mem - 1).

(** The published recursions: N samples of size n with inputs x k i and targets d k; outputs y k, errors e k;
    W k i is weight i before sample k, W N i the final one. *)
Definition published (c : kind) (kw : kwargs R) (n N : nat) (d : nat -> R) (x : nat -> nat -> R)
    (y e : nat -> R) (W : nat -> nat -> R) : Prop :=
  let mu := rate c kw in
  let errors := forall k, (k < N)%nat -> e k = d k - y k in
  let linear := errors /\ forall k, (k < N)%nat -> y k = dotn n (W k) (x k) in
  let moves (g : nat -> nat -> R) := forall k i, (k < N)%nat -> (i < n)%nat -> W (S k) i = W k i + g k i in
  match c with
  | KLMS => linear /\ moves (fun k i => mu * e k * x k i)
  | KLMF => linear /\ moves (fun k i => mu * e k ^ 3 * x k i)
  | KSSLMS => linear /\ moves (fun k i => mu * Rsgn (x k i) * Rsgn (e k))
  | KNLMS => let eps := par (kw_eps kw) (1 / 1000) in
      linear /\ moves (fun k i => mu / (eps + dotn n (x k) (x k)) * e k * x k i)
  | KNLMF => let eps := par (kw_eps kw) (1 / 1000) in
      linear /\ moves (fun k i => mu / (eps + dotn n (x k) (x k)) * e k ^ 3 * x k i)
  | KNSSLMS => let eps := par (kw_eps kw) (1 / 1000) in
      linear /\ moves (fun k i => mu / (eps + dotn n (x k) (x k)) * Rsgn (x k i) * Rsgn (e k))
  | KGMCC => let la := par (kw_lambd kw) (3 / 100) in let al := par (kw_alpha kw) 2 in
      linear /\ moves (fun k i =>
        mu * la * al * exp (- la * Rpowf (Rabs (e k)) al) * Rpowf (Rabs (e k)) (al - 1) * Rsgn (e k) * x k i)
  | KLlncosh => let la := par (kw_lambd kw) 3 in
      linear /\ moves (fun k i => mu * tanh (la * e k) * x k i)
  | KGNGD => let ro := par (kw_ro kw) (1 / 10) in
      linear /\ exists eps : nat -> R,
        eps 0%nat = par (kw_eps kw) 1 /\
        (forall k, (k < N)%nat -> eps (S k) = eps k - ro * mu * (e k * before e k * dotn n (x k) (vbefore x k)
                                              / (dotn n (vbefore x k) (vbefore x k) + eps k) ^ 2)) /\
        moves (fun k i => mu / (eps (S k) + dotn n (x k) (x k)) * e k * x k i)
  | KRLS =>
      linear /\ exists P : nat -> nat -> nat -> R,
        (forall i j, (i < n)%nat -> (j < n)%nat -> P 0%nat i j = / par (kw_eps kw) (1 / 1000) * delta i j) /\
        (forall k i j, (k < N)%nat -> (i < n)%nat -> (j < n)%nat ->
           let Px i := sumn n (fun a => P k i a * x k a) in
           let xP j := sumn n (fun a => x k a * P k a j) in
           P (S k) i j = / mu * (P k i j - Px i * xP j / (mu + sumn n (fun a => x k a * Px a)))) /\
        moves (fun k i => sumn n (fun j => P (S k) i j * x k j) * e k)
  | KAng => let ro := par (kw_ro kw) (2 / 10000) in let a := par (kw_a kw) (95 / 100) in
      linear /\ exists (m : nat -> R) (phi : nat -> nat -> R),
        m 0%nat = mu /\ (forall i, (i < n)%nat -> phi 0%nat i = 0) /\
        (forall k i, (k < N)%nat -> (i < n)%nat -> phi (S k) i = a * phi k i + before e k * vbefore x k i) /\
        (forall k, (k < N)%nat -> m (S k) = m k + ro * e k * dotn n (vbefore x k) (phi (S k))) /\
        moves (fun k i => m (S k) * e k * x k i)
  | KBenveniste => let ro := par (kw_ro kw) (1 / 10) in
      linear /\ exists (m : nat -> R) (phi : nat -> nat -> R),
        m 0%nat = mu /\ (forall i, (i < n)%nat -> phi 0%nat i = 0) /\
        (forall k i, (k < N)%nat -> (i < n)%nat ->
           phi (S k) i = phi k i - m k * vbefore x k i * dotn n (vbefore x k) (phi k) + before e k * vbefore x k i) /\
        (forall k, (k < N)%nat -> m (S k) = m k + ro * e k * dotn n (vbefore x k) (phi (S k))) /\
        moves (fun k i => m (S k) * e k * x k i)
  | KMathews => let ro := par (kw_ro kw) (1 / 10) in
      linear /\ exists m : nat -> R,
        m 0%nat = mu /\
        (forall k, (k < N)%nat -> m (S k) = m k + ro * e k * before e k * dotn n (vbefore x k) (x k)) /\
        moves (fun k i => m (S k) * e k * x k i)
  | KAP => let K := par (kw_order kw) 5%nat in let ifc := par (kw_ifc kw) (1 / 1000) in
      (* column j of X and entry j of E: the sample j steps ago, seen with the current weights *)
      let X k i j := ago (fun t => x t i) k j in
      let E k j := ago d k j - sumn n (fun i => X k i j * W k i) in
      linear /\ exists G : nat -> nat -> nat -> R,
        (forall k a b, (k < N)%nat -> (a < K)%nat -> (b < K)%nat ->
           sumn K (fun l => (sumn n (fun i => X k i a * X k i l) + ifc * delta a l) * G k l b) = delta a b) /\
        moves (fun k i => mu * sumn K (fun a => X k i a * sumn K (fun b => G k a b * E k b)))
  | KOCNLMS => let mem := par (kw_mem kw) 100%nat in let eps := par (kw_eps kw) 1 in
      exists t : nat -> R,
      (* offsets used by the output of sample k, and by its update, when x k is already in the memory *)
      let mx k i := oc_offset_x mem (2 * k) (slot mem (fun j => x j i) k) in
      let md k := oc_offset_d mem (2 * k) (slot mem t k) in
      let mx' k i := oc_offset_x mem (2 * k + 1) (slot mem (fun j => x j i) (S k)) in
      let md' k := oc_offset_d mem (2 * k + 1) (slot mem t k) in
      let u k i := x k i - mx' k i in
      errors /\ (forall k, (k < N)%nat -> y k = sumn n (fun i => W k i * (x k i - mx k i)) + md k) /\
      (forall k, (k < N)%nat -> t k = e k + (dotn n (W k) (u k) + md' k)) /\
      moves (fun k i => mu / (eps + dotn n (u k) (u k)) * e k * u k i)
  end.

(** ** The recursions determine the outputs *)
Lemma dotn_eq n a b a' b' : (forall i, (i < n)%nat -> a i = a' i) -> (forall i, (i < n)%nat -> b i = b' i) -> dotn n a b = dotn n a' b'.
Proof. intros H1 H2. apply sumn_ext. intros i Hi. rewrite H1, H2 by exact Hi. reflexivity. Qed.

Lemma det_scheme n N (d : nat -> R) (x : nat -> nat -> R) (y e : nat -> R) (W : nat -> nat -> R) (y2 e2 : nat -> R) (W2 : nat -> nat -> R)
    (Q : nat -> Prop) :
  ((forall k, (k < N)%nat -> e k = d k - y k) /\ forall k, (k < N)%nat -> y k = dotn n (W k) (x k)) ->
  ((forall k, (k < N)%nat -> e2 k = d k - y2 k) /\ forall k, (k < N)%nat -> y2 k = dotn n (W2 k) (x k)) ->
  (forall i, (i < n)%nat -> W 0%nat i = W2 0%nat i) -> Q 0%nat ->
  (forall k, (k < N)%nat -> Q k -> e k = e2 k -> before e k = before e2 k -> (forall i, (i < n)%nat -> W k i = W2 k i) ->
     Q (S k) /\ forall i, (i < n)%nat -> W (S k) i = W2 (S k) i) ->
  (forall k, (k < N)%nat -> y k = y2 k /\ e k = e2 k) /\ (forall k i, (k <= N)%nat -> (i < n)%nat -> W k i = W2 k i).
Proof.
  intros (E1 & L1) (E2 & L2) HW HQ Hstep.
  assert (HY : forall k, (k < N)%nat -> (forall i, (i < n)%nat -> W k i = W2 k i) -> y k = y2 k /\ e k = e2 k).
  { intros k Hk H. assert (Hy : y k = y2 k) by (rewrite L1, L2 by exact Hk; apply dotn_eq; auto). split; [exact Hy|].
    rewrite E1, E2, Hy by exact Hk. reflexivity. }
  assert (HI : forall k, (k <= N)%nat -> Q k /\ before e k = before e2 k /\ forall i, (i < n)%nat -> W k i = W2 k i).
  { induction k as [|k IH]; intros Hk; [split; [exact HQ|split; [reflexivity|exact HW]]|].
    destruct (IH ltac:(lia)) as (H1 & H2 & H3). destruct (HY k ltac:(lia) H3) as (_ & He).
    destruct (Hstep k ltac:(lia) H1 He H2 H3) as (H4 & H5). split; [exact H4|]. split; [exact He|exact H5]. }
  split; [|intros k i Hk; apply HI; exact Hk]. intros k Hk. apply HY; [exact Hk|]. apply HI. lia.
Qed.

Lemma inverse_unique K (A G G2 : nat -> nat -> R) : (forall a b, A a b = A b a) ->
  (forall a b, (a < K)%nat -> (b < K)%nat -> sumn K (fun l => A a l * G l b) = delta a b) ->
  (forall a b, (a < K)%nat -> (b < K)%nat -> sumn K (fun l => A a l * G2 l b) = delta a b) ->
  forall a b, (a < K)%nat -> (b < K)%nat -> G a b = G2 a b.
Proof.
  intros HA.
  assert (H : forall G G2, (forall a b, (a < K)%nat -> (b < K)%nat -> sumn K (fun l => A a l * G l b) = delta a b) ->
    (forall a b, (a < K)%nat -> (b < K)%nat -> sumn K (fun l => A a l * G2 l b) = delta a b) ->
    forall m b, (m < K)%nat -> (b < K)%nat -> G b m = G2 m b).
  { clear G G2. intros G G2 H1 H2 m b Hm Hb.
    assert (E1 : sumn K (fun a => G a m * sumn K (fun l => A a l * G2 l b)) = G b m).
    { rewrite (sumn_ext K _ (fun a => (if Nat.eqb b a then 1 else 0) * G a m)); [exact (sumn_delta K b (fun a => G a m) Hb)|].
      intros a Ha. rewrite H2 by auto. unfold delta. rewrite Nat.eqb_sym. ring. }
    assert (E2 : sumn K (fun a => G a m * sumn K (fun l => A a l * G2 l b)) = G2 m b).
    { rewrite (sumn_ext K _ (fun a => sumn K (fun l => A l a * G a m * G2 l b))).
      - rewrite sumn_swap. rewrite (sumn_ext K _ (fun l => (if Nat.eqb m l then 1 else 0) * G2 l b)); [exact (sumn_delta K m (fun l => G2 l b) Hm)|].
        intros l Hl. rewrite sumn_scal_r, H1 by auto. unfold delta. rewrite Nat.eqb_sym. reflexivity.
      - intros a Ha. rewrite <- sumn_scal. apply sumn_ext. intros l Hl. rewrite (HA a l). ring. }
    congruence. }
  intros H1 H2 a b Ha Hb. transitivity (G b a); [symmetry; exact (H G G H1 H1 a b Ha Hb)|exact (H G G2 H1 H2 a b Ha Hb)].
Qed.

Lemma slot_ext mem v v' k s : (forall j, (j < k)%nat -> v j = v' j) -> slot mem v k s = slot mem v' k s.
Proof.
  induction k as [|k IH]; intros H; [reflexivity|]. cbn [slot]. rewrite H by lia. rewrite IH by (intros; apply H; lia). reflexivity.
Qed.
Lemma oc_offset_d_ext mem c m m' : (forall s, m s = m' s) -> oc_offset_d mem c m = oc_offset_d mem c m'.
Proof.
  intros H. unfold oc_offset_d. rewrite H. rewrite !(sumn_ext _ m m') by auto. reflexivity.
Qed.

Theorem C65_recursion_determines : forall c (kw : kwargs R) n N d x y e W y2 e2 W2,
  published c kw n N d x y e W -> published c kw n N d x y2 e2 W2 -> (forall i, (i < n)%nat -> W 0%nat i = W2 0%nat i) ->
  (forall k, (k < N)%nat -> y k = y2 k /\ e k = e2 k) /\ (forall k i, (k <= N)%nat -> (i < n)%nat -> W k i = W2 k i).
Proof.
  intros c kw n N d x y e W y2 e2 W2 HP HP2 HW. unfold published in HP, HP2. cbv zeta in HP, HP2.
  destruct c.
  - (* AP *) destruct HP as (HL & G & HG & HM). destruct HP2 as (HL2 & G2 & HG2 & HM2).
    apply (det_scheme n N d x y e W y2 e2 W2 (fun _ => True)); auto.
    intros k Hk _ He Hb Hw. split; [exact I|]. intros i Hi. rewrite HM, HM2, Hw by auto. f_equal. f_equal.
    apply sumn_ext. intros a Ha. f_equal. apply sumn_ext. intros b Hb'. f_equal.
    + apply (inverse_unique (par (kw_order kw) 5%nat)
        (fun a l => sumn n (fun i => ago (fun t => x t i) k a * ago (fun t => x t i) k l) + par (kw_ifc kw) (1 / 1000) * delta a l)); auto.
      intros a1 b1. f_equal; [apply sumn_ext; intros; ring|]. unfold delta. rewrite Nat.eqb_sym. reflexivity.
    + f_equal. apply sumn_ext. intros j Hj. rewrite Hw by exact Hj. reflexivity.
  - (* GMCC *) destruct HP as (HL & HM). destruct HP2 as (HL2 & HM2).
    apply (det_scheme n N d x y e W y2 e2 W2 (fun _ => True)); auto.
    intros k Hk _ He Hb Hw. split; [exact I|]. intros i Hi. rewrite HM, HM2, Hw, He by auto. reflexivity.
  - (* GNGD *) destruct HP as (HL & p & H0 & HS & HM). destruct HP2 as (HL2 & p2 & H02 & HS2 & HM2).
    apply (det_scheme n N d x y e W y2 e2 W2 (fun k => p k = p2 k)); auto; [congruence|].
    intros k Hk HQ He Hb Hw. assert (Hp : p (S k) = p2 (S k)) by (rewrite HS, HS2, HQ, He, Hb by auto; reflexivity).
    split; [exact Hp|]. intros i Hi. rewrite HM, HM2, Hw, He, Hp by auto. reflexivity.
  - destruct HP as (HL & HM). destruct HP2 as (HL2 & HM2).
    apply (det_scheme n N d x y e W y2 e2 W2 (fun _ => True)); auto.
    intros k Hk _ He Hb Hw. split; [exact I|]. intros i Hi. rewrite HM, HM2, Hw, He by auto. reflexivity.
  - destruct HP as (HL & HM). destruct HP2 as (HL2 & HM2).
    apply (det_scheme n N d x y e W y2 e2 W2 (fun _ => True)); auto.
    intros k Hk _ He Hb Hw. split; [exact I|]. intros i Hi. rewrite HM, HM2, Hw, He by auto. reflexivity.
  - destruct HP as (HL & HM). destruct HP2 as (HL2 & HM2).
    apply (det_scheme n N d x y e W y2 e2 W2 (fun _ => True)); auto.
    intros k Hk _ He Hb Hw. split; [exact I|]. intros i Hi. rewrite HM, HM2, Hw, He by auto. reflexivity.
  - destruct HP as (HL & HM). destruct HP2 as (HL2 & HM2).
    apply (det_scheme n N d x y e W y2 e2 W2 (fun _ => True)); auto.
    intros k Hk _ He Hb Hw. split; [exact I|]. intros i Hi. rewrite HM, HM2, Hw, He by auto. reflexivity.
  - destruct HP as (HL & HM). destruct HP2 as (HL2 & HM2).
    apply (det_scheme n N d x y e W y2 e2 W2 (fun _ => True)); auto.
    intros k Hk _ He Hb Hw. split; [exact I|]. intros i Hi. rewrite HM, HM2, Hw, He by auto. reflexivity.
  - destruct HP as (HL & HM). destruct HP2 as (HL2 & HM2).
    apply (det_scheme n N d x y e W y2 e2 W2 (fun _ => True)); auto.
    intros k Hk _ He Hb Hw. split; [exact I|]. intros i Hi. rewrite HM, HM2, Hw, He by auto. reflexivity.
  - (* OCNLMS *) destruct HP as (t & HE & HY & HT & HM). destruct HP2 as (t2 & HE2 & HY2 & HT2 & HM2).
    assert (HI : forall k, (k <= N)%nat -> (forall j, (j < k)%nat -> t j = t2 j) /\ (forall j, (j < k)%nat -> y j = y2 j /\ e j = e2 j) /\
      (forall i, (i < n)%nat -> W k i = W2 k i)).
    { induction k as [|k IH]; intros Hk; [repeat split; try (intros; lia); exact HW|].
      destruct (IH ltac:(lia)) as (H1 & H2 & H3).
      assert (Hs : forall s, slot (par (kw_mem kw) 100%nat) t k s = slot (par (kw_mem kw) 100%nat) t2 k s) by (intros s; apply slot_ext; exact H1).
      assert (Hy : y k = y2 k).
      { rewrite HY, HY2 by lia. f_equal; [apply sumn_ext; intros i Hi; rewrite H3 by exact Hi; reflexivity|].
        apply oc_offset_d_ext; exact Hs. }
      assert (He : e k = e2 k) by (rewrite HE, HE2, Hy by lia; reflexivity).
      assert (Ht : t k = t2 k).
      { rewrite HT, HT2, He by lia. f_equal. f_equal; [apply dotn_eq; auto|]. apply oc_offset_d_ext; exact Hs. }
      split; [|split].
      - intros j Hj. destruct (Nat.eq_dec j k) as [->|Hne]; [exact Ht|apply H1; lia].
      - intros j Hj. destruct (Nat.eq_dec j k) as [->|Hne]; [split; [exact Hy|exact He]|apply H2; lia].
      - intros i Hi. rewrite HM, HM2, H3, He by (auto; lia). reflexivity. }
    split; [intros k Hk; apply (HI N ltac:(lia)); exact Hk|intros k i Hk Hi; apply (HI k Hk); exact Hi].
  - (* RLS *) destruct HP as (HL & P & H0 & HS & HM). destruct HP2 as (HL2 & P2 & H02 & HS2 & HM2).
    apply (det_scheme n N d x y e W y2 e2 W2 (fun k => forall i j, (i < n)%nat -> (j < n)%nat -> P k i j = P2 k i j)); auto.
    { intros i j Hi Hj. rewrite H0, H02 by auto. reflexivity. }
    intros k Hk HQ He Hb Hw.
    assert (HPx : forall i, (i < n)%nat -> sumn n (fun a => P k i a * x k a) = sumn n (fun a => P2 k i a * x k a)).
    { intros i Hi. apply sumn_ext. intros a Ha. rewrite HQ by auto. reflexivity. }
    assert (Hp : forall i j, (i < n)%nat -> (j < n)%nat -> P (S k) i j = P2 (S k) i j).
    { intros i j Hi Hj. rewrite HS, HS2, HQ, HPx by auto. f_equal. f_equal. f_equal; [f_equal|].
      - apply sumn_ext. intros a Ha. rewrite HQ by auto. reflexivity.
      - f_equal. apply sumn_ext. intros a Ha. rewrite HPx by auto. reflexivity. }
    split; [exact Hp|]. intros i Hi. rewrite HM, HM2, Hw, He by auto. f_equal. f_equal. apply sumn_ext. intros j Hj. rewrite Hp by auto. reflexivity.
  - destruct HP as (HL & HM). destruct HP2 as (HL2 & HM2).
    apply (det_scheme n N d x y e W y2 e2 W2 (fun _ => True)); auto.
    intros k Hk _ He Hb Hw. split; [exact I|]. intros i Hi. rewrite HM, HM2, Hw, He by auto. reflexivity.
  - (* Ang *) destruct HP as (HL & m & f & H0 & F0 & HF & HS & HM). destruct HP2 as (HL2 & m2 & f2 & H02 & F02 & HF2 & HS2 & HM2).
    apply (det_scheme n N d x y e W y2 e2 W2 (fun k => m k = m2 k /\ forall i, (i < n)%nat -> f k i = f2 k i)); auto.
    { split; [congruence|]. intros i Hi. rewrite F0, F02 by exact Hi. reflexivity. }
    intros k Hk (HQ & Hf) He Hb Hw.
    assert (Hf' : forall i, (i < n)%nat -> f (S k) i = f2 (S k) i) by (intros i Hi; rewrite HF, HF2, Hf, Hb by auto; reflexivity).
    assert (Hm : m (S k) = m2 (S k)) by (rewrite HS, HS2, HQ, He by auto; f_equal; f_equal; apply dotn_eq; auto).
    split; [split; assumption|]. intros i Hi. rewrite HM, HM2, Hw, He, Hm by auto. reflexivity.
  - (* Benveniste *) destruct HP as (HL & m & f & H0 & F0 & HF & HS & HM). destruct HP2 as (HL2 & m2 & f2 & H02 & F02 & HF2 & HS2 & HM2).
    apply (det_scheme n N d x y e W y2 e2 W2 (fun k => m k = m2 k /\ forall i, (i < n)%nat -> f k i = f2 k i)); auto.
    { split; [congruence|]. intros i Hi. rewrite F0, F02 by exact Hi. reflexivity. }
    intros k Hk (HQ & Hf) He Hb Hw.
    assert (Hf' : forall i, (i < n)%nat -> f (S k) i = f2 (S k) i).
    { intros i Hi. rewrite HF, HF2, Hf, Hb, HQ by auto. rewrite (dotn_eq n (vbefore x k) (f k) (vbefore x k) (f2 k)) by auto. reflexivity. }
    assert (Hm : m (S k) = m2 (S k)) by (rewrite HS, HS2, HQ, He by auto; f_equal; f_equal; apply dotn_eq; auto).
    split; [split; assumption|]. intros i Hi. rewrite HM, HM2, Hw, He, Hm by auto. reflexivity.
  - (* Mathews *) destruct HP as (HL & m & H0 & HS & HM). destruct HP2 as (HL2 & m2 & H02 & HS2 & HM2).
    apply (det_scheme n N d x y e W y2 e2 W2 (fun k => m k = m2 k)); auto; [congruence|].
    intros k Hk HQ He Hb Hw. assert (Hm : m (S k) = m2 (S k)) by (rewrite HS, HS2, HQ, He, Hb by auto; reflexivity).
    split; [exact Hm|]. intros i Hi. rewrite HM, HM2, Hw, He, Hm by auto. reflexivity.
Qed.

Section S.
  Variable solve : list rvec -> list rvec -> option (list rvec).
  #[local] Hint Extern 0 (Num R) => exact (RNum solve) : typeclass_instances.
  Notation obj := (obj R).

  (** ** The states of a run *)
  Lemma run_states n (o o' : obj) d x y e w : wf n o -> rowsl n x -> run d x o = (o', Ok (y, e, w)) ->
    exists st : nat -> obj, st 0%nat = o /\ forall k, (k < length x)%nat ->
      wf n (st k) /\ o_mu (st k) = o_mu o /\
      adapt (nth k d 0) (nth k x []) (st k) = (st (S k), Ok tt) /\
      o_w (st k) = wrow w (o_w o') k /\ o_w (st (S k)) = wrow w (o_w o') (S k) /\
      nth k y 0 = pred_out (st k) (nth k x []) /\ nth k e 0 = nth k d 0 - nth k y 0 /\ length (nth k x []) = n.
  Proof.
    intros Hwf Hx E. exists (fun k => state_after k d x o). split; [reflexivity|]. intros k Hk.
    destruct (run_step solve n o o' d x y e w k Hwf Hx E Hk) as (s & s' & Hs & Hf & Es & Es' & Ha & Hw & Hw' & Hy & He & Hlx).
    rewrite <- Es, <- Es'. repeat split; auto; try apply Hs. apply Hf.
  Qed.

  (** plain classes: output *)
  Lemma lin n (s : obj) (u : rvec) : wf n s -> length u = n -> is_AP s = false -> is_OCNLMS s = false ->
    pred_out s u = dotn n (fun i => nth i (o_w s) 0) (fun i => nth i u 0).
  Proof.
    intros Hs Hu H1 H2. rewrite (pred_out_plain n) by assumption. change (Rdot (o_w s) u = dotn n (fun i => nth i (o_w s) 0) (fun i => nth i u 0)).
    apply Rdot_sumn; [apply Hs|exact Hu].
  Qed.
  Lemma dot_lists n (u v : rvec) : length u = n -> length v = n -> Rdot u v = dotn n (fun i => nth i u 0) (fun i => nth i v 0).
  Proof. apply Rdot_sumn. Qed.
  Lemma dotn_ext n a b a' b' : (forall i, (i < n)%nat -> a i = a' i) -> (forall i, (i < n)%nat -> b i = b' i) -> dotn n a b = dotn n a' b'.
  Proof. intros H1 H2. apply sumn_ext. intros i Hi. rewrite H1, H2 by exact Hi. reflexivity. Qed.

  Lemma outer_ent (u v : rvec) i j : (i < length u)%nat -> (j < length v)%nat -> ent (outer u v) i j = nth i u 0 * nth j v 0.
  Proof.
    intros Hi Hj. unfold ent, outer. rewrite (map_nth_lt _ u i 0) by exact Hi.
    rewrite (map_nth_lt _ v j 0) by exact Hj. reflexivity.
  Qed.
  Lemma mscale_ent c (A : rmat) r k i j : shape r k A -> (i < r)%nat -> (j < k)%nat -> ent (mscale c A) i j = c * ent A i j.
  Proof.
    intros (H1 & H2) Hi Hj. unfold ent, mscale. rewrite (map_nth_lt _ A i []) by lia.
    unfold vscale. rewrite (map_nth_lt _ (nth i A []) j 0); [reflexivity|]. rewrite (shape_row r k A i (conj H1 H2) Hi). exact Hj.
  Qed.

  Section Run.
    Variables (n : nat) (o o' : obj) (d : rvec) (x : rmat) (y e : rvec) (w : rmat).
    Hypotheses (Hwf : wf n o) (Hx : rowsl n x) (HR : run d x o = (o', Ok (y, e, w))).
    Let N := length x.
    Let D k := nth k d 0. Let X k i := nth i (nth k x []) 0. Let Y k := nth k y 0. Let Er k := nth k e 0.
    Let W k i := nth i (wrow w (o_w o') k) 0.
    Let lx k : rvec := match k with O => repeat 0 n | S j => nth j x [] end.

    Lemma lx_nth k i : (i < n)%nat -> nth i (lx k) 0 = vbefore X k i.
    Proof. intros Hi. destruct k; [apply nth_repeat|reflexivity]. Qed.
    Lemma lx_len k : (k <= N)%nat -> length (lx k) = n.
    Proof. intros Hk. destruct k; [apply repeat_length|]. apply nth_rows; auto. Qed.

    (** memoryless classes *)
    Lemma rec_textbook (g : R -> rvec -> nat -> R) :
      (forall e v, textbook (o_ext o) (o_mu o) e v <> None) ->
      (forall e v dw i, length v = n -> (i < n)%nat -> textbook (o_ext o) (o_mu o) e v = Some dw -> nth i dw 0 = g e v i) ->
      ((forall k, (k < N)%nat -> Er k = D k - Y k) /\ (forall k, (k < N)%nat -> Y k = dotn n (W k) (X k))) /\
      forall k i, (k < N)%nat -> (i < n)%nat -> W (S k) i = W k i + g (Er k) (nth k x []) i.
    Proof.
      intros Ht Hg.
      assert (HK : forall k, (k < N)%nat -> exists dw, textbook (o_ext o) (o_mu o) (nth k e 0) (nth k x []) = Some dw /\
        wrow w (o_w o') (S k) = vadd (wrow w (o_w o') k) dw /\ nth k y 0 = Rdot (wrow w (o_w o') k) (nth k x []) /\
        nth k e 0 = nth k d 0 - nth k y 0 /\ length (wrow w (o_w o') k) = n /\ length (nth k x []) = n).
      { intros k Hk. apply (run_textbook solve n o o' d x y e w k); auto. }
      split; [split|].
      - intros k Hk. destruct (HK k Hk) as (dw & _ & _ & _ & H & _). exact H.
      - intros k Hk. destruct (HK k Hk) as (dw & _ & _ & H & _ & H1 & H2). unfold Y. rewrite H. apply Rdot_sumn; auto.
      - intros k i Hk Hi. destruct (HK k Hk) as (dw & Ht' & H & _ & _ & H1 & H2). unfold W. rewrite H.
        rewrite nth_vadd by (rewrite (textbook_length _ _ _ _ _ Ht'); congruence).
        f_equal. apply (Hg _ _ _ _ H2 Hi Ht').
    Qed.

    (** classes with a state: the general step *)
    Lemma rec_states : exists st : nat -> obj, st 0%nat = o /\ forall k, (k < N)%nat ->
      wf n (st k) /\ o_mu (st k) = o_mu o /\ adapt (D k) (nth k x []) (st k) = (st (S k), Ok tt) /\
      o_w (st k) = wrow w (o_w o') k /\ o_w (st (S k)) = wrow w (o_w o') (S k) /\
      Y k = pred_out (st k) (nth k x []) /\ Er k = D k - Y k /\ length (nth k x []) = n.
    Proof. apply (run_states n o o' d x y e w); assumption. Qed.

    Lemma norm_X k : (k < N)%nat -> Rdot (nth k x []) (nth k x []) = dotn n (X k) (X k).
    Proof. intros Hk. assert (length (nth k x []) = n) by (apply nth_rows; auto). apply Rdot_sumn; auto. Qed.
    Lemma dot_Xlx k : (k < N)%nat -> Rdot (nth k x []) (lx k) = dotn n (X k) (vbefore X k).
    Proof.
      intros Hk. assert (H : length (nth k x []) = n) by (apply nth_rows; auto).
      rewrite (Rdot_sumn n) by (auto; apply lx_len; lia). apply dotn_ext; intros i Hi; [reflexivity|apply lx_nth; auto].
    Qed.
    Lemma norm_lx k : (k < N)%nat -> Rdot (lx k) (lx k) = dotn n (vbefore X k) (vbefore X k).
    Proof.
      intros Hk. rewrite (Rdot_sumn n) by (apply lx_len; lia). apply dotn_ext; intros i Hi; apply lx_nth; auto.
    Qed.

    (** a class whose attributes are [mk a]: [upd] is their update, [dw] the increment of the weights *)
    Lemma rec_general {A : Type} (mk : A -> ext R) (a0 : A) (upd : A -> R -> rvec -> A) (dw : A -> R -> rvec -> rvec) :
      o_ext o = mk a0 ->
      (forall a (s : obj), o_ext s = mk a -> is_AP s = false /\ is_OCNLMS s = false) ->
      (forall a (s : obj) (d1 : R) (u : rvec), wf n s -> length u = n -> o_mu s = o_mu o -> o_ext s = mk a ->
         let er := d1 - Rdot (o_w s) u in
         length (dw a er u) = n /\
         forall s', adapt d1 u s = (s', Ok tt) -> s' = set_w (vadd (o_w s) (dw a er u)) (set_ext (mk (upd a er u)) s)) ->
      ((forall k, (k < N)%nat -> Er k = D k - Y k) /\ (forall k, (k < N)%nat -> Y k = dotn n (W k) (X k))) /\
      exists a : nat -> A, a 0%nat = a0 /\ forall k, (k < N)%nat ->
        a (S k) = upd (a k) (Er k) (nth k x []) /\ (exists s : obj, wf n s /\ o_ext s = mk (a k)) /\
        forall i, (i < n)%nat -> W (S k) i = W k i + nth i (dw (a k) (Er k) (nth k x [])) 0.
    Proof.
      intros Ho Hpl Hst. destruct rec_states as (st & S0 & HS).
      set (a := fun k => nat_rect (fun _ => A) a0 (fun k a => upd a (Er k) (nth k x [])) k).
      assert (HE : forall k, (k < N)%nat -> o_ext (st k) = mk (a k) ->
        Y k = Rdot (o_w (st k)) (nth k x []) /\ Er k = D k - Rdot (o_w (st k)) (nth k x [])).
      { intros k Hk IH. destruct (HS k Hk) as (H1 & _ & _ & _ & _ & H6 & H7 & H8). destruct (Hpl _ _ IH) as (P1 & P2).
        assert (HY : Y k = Rdot (o_w (st k)) (nth k x [])) by (rewrite H6; exact (pred_out_plain n (st k) (nth k x []) H1 H8 P1 P2)).
        split; [exact HY|]. rewrite <- HY; exact H7. }
      assert (HI : forall k, (k <= N)%nat -> o_ext (st k) = mk (a k)).
      { induction k as [|k IH]; intros Hk; [rewrite S0; exact Ho|]. specialize (IH ltac:(lia)).
        destruct (HS k ltac:(lia)) as (H1 & H2 & H3 & H4 & H5 & H6 & H7 & H8).
        destruct (HE k ltac:(lia) IH) as (_ & HEr).
        destruct (Hst (a k) (st k) (D k) (nth k x []) H1 H8 H2 IH) as (_ & HA). rewrite (HA _ H3), <- HEr. reflexivity. }
      split; [split|exists a; split; [reflexivity|]].
      - intros k Hk. apply (HS k Hk).
      - intros k Hk. destruct (HS k Hk) as (H1 & _ & _ & H4 & _ & _ & _ & H8). destruct (HE k Hk (HI k ltac:(lia))) as (-> & _).
        rewrite H4. apply Rdot_sumn; auto. rewrite <- H4. apply H1.
      - intros k Hk. destruct (HS k Hk) as (H1 & H2 & H3 & H4 & H5 & H6 & H7 & H8). pose proof (HI k ltac:(lia)) as IH.
        destruct (HE k Hk IH) as (_ & HEr).
        split; [reflexivity|]. split; [exists (st k); auto|]. intros i Hi.
        destruct (Hst (a k) (st k) (D k) (nth k x []) H1 H8 H2 IH) as (Hl & HA). rewrite <- HEr in HA, Hl.
        unfold W at 1. rewrite <- H5, (HA _ H3). cbn [set_w o_w].
        rewrite nth_vadd by (rewrite Hl; apply H1). rewrite H4. reflexivity.
    Qed.

    Lemma rec_GNGD eps0 ro : o_ext o = XGNGD eps0 ro 0 (repeat 0 n) ->
      ((forall k, (k < N)%nat -> Er k = D k - Y k) /\ (forall k, (k < N)%nat -> Y k = dotn n (W k) (X k))) /\
      exists eps : nat -> R, eps 0%nat = eps0 /\
        (forall k, (k < N)%nat -> eps (S k) = eps k - ro * o_mu o * (Er k * before Er k * dotn n (X k) (vbefore X k)
             / (dotn n (vbefore X k) (vbefore X k) + eps k) ^ 2)) /\
        forall k i, (k < N)%nat -> (i < n)%nat -> W (S k) i = W k i + o_mu o / (eps (S k) + dotn n (X k) (X k)) * Er k * X k i.
    Proof.
      intros Ho.
      set (nexteps := fun (a : R * R * rvec) (er : R) (u : rvec) =>
        fst (fst a) - ro * o_mu o * er * snd (fst a) * Rdot u (snd a) / (Rdot (snd a) (snd a) + fst (fst a)) ^ 2).
      destruct (rec_general (fun a : R * R * rvec => XGNGD (fst (fst a)) ro (snd (fst a)) (snd a)) (eps0, 0, repeat 0 n)
        (fun a er u => (nexteps a er u, er, u))
        (fun a er u => vsc (o_mu o / (nexteps a er u + Rdot u u) * er) u)) as (HL & a & A0 & HA).
      - exact Ho.
      - intros a s Hs. unfold is_AP, is_OCNLMS; rewrite Hs; auto.
      - intros a s d1 u Hs Hu Hmu Hext er. split; [rewrite vsc_length; exact Hu|]. intros s' Hs'.
        pose proof (adapt_GNGD n s d1 u _ _ _ _ Hs Hu Hext) as H. cbv zeta in H. rewrite Hs' in H.
        apply pair_equal_spec in H as (H & _). rewrite H, Hmu. reflexivity.
      - split; [exact HL|]. exists (fun k => fst (fst (a k))).
        assert (HI : forall k, (k <= N)%nat -> snd (fst (a k)) = before Er k /\ snd (a k) = lx k).
        { intros [|k] Hk; [rewrite A0; auto|]. destruct (HA k ltac:(lia)) as (-> & _). auto. }
        split; [rewrite A0; reflexivity|]. split.
        + intros k Hk. destruct (HA k Hk) as (-> & _). destruct (HI k ltac:(lia)) as (H1 & H2). cbn [fst snd].
          unfold nexteps. rewrite H1, H2, dot_Xlx, norm_lx by exact Hk. unfold Rdiv; ring.
        + intros k i Hk Hi. destruct (HA k Hk) as (-> & _ & H). rewrite (H i Hi), nth_vsc, norm_X by exact Hk. reflexivity.
    Qed.

    Lemma rec_Mathews ro : o_ext o = XMathews ro 0 (repeat 0 n) (o_mu o) ->
      ((forall k, (k < N)%nat -> Er k = D k - Y k) /\ (forall k, (k < N)%nat -> Y k = dotn n (W k) (X k))) /\
      exists m : nat -> R, m 0%nat = o_mu o /\
        (forall k, (k < N)%nat -> m (S k) = m k + ro * Er k * before Er k * dotn n (vbefore X k) (X k)) /\
        forall k i, (k < N)%nat -> (i < n)%nat -> W (S k) i = W k i + m (S k) * Er k * X k i.
    Proof.
      intros Ho.
      set (nextm := fun (a : R * rvec * R) (er : R) (u : rvec) => snd a + ro * er * fst (fst a) * Rdot (snd (fst a)) u).
      destruct (rec_general (fun a : R * rvec * R => XMathews ro (fst (fst a)) (snd (fst a)) (snd a)) (0, repeat 0 n, o_mu o)
        (fun a er u => (er, u, nextm a er u)) (fun a er u => vsc (nextm a er u * er) u)) as (HL & a & A0 & HA).
      - exact Ho.
      - intros a s Hs. unfold is_AP, is_OCNLMS; rewrite Hs; auto.
      - intros a s d1 u Hs Hu Hmu Hext er. split; [rewrite vsc_length; exact Hu|]. intros s' Hs'.
        pose proof (adapt_Mathews n s d1 u _ _ _ _ Hs Hu Hext) as H. cbv zeta in H. rewrite Hs' in H.
        apply pair_equal_spec in H as (H & _). rewrite H. reflexivity.
      - split; [exact HL|]. exists (fun k => snd (a k)).
        assert (HI : forall k, (k <= N)%nat -> fst (fst (a k)) = before Er k /\ snd (fst (a k)) = lx k).
        { intros [|k] Hk; [rewrite A0; auto|]. destruct (HA k ltac:(lia)) as (-> & _). auto. }
        split; [rewrite A0; reflexivity|]. split.
        + intros k Hk. destruct (HA k Hk) as (-> & _). destruct (HI k ltac:(lia)) as (H1 & H2). cbn [fst snd].
          unfold nextm. rewrite H1, H2, Rdot_comm, dot_Xlx by exact Hk. f_equal. f_equal. unfold dotn. apply sumn_ext; intros; ring.
        + intros k i Hk Hi. destruct (HA k Hk) as (-> & _ & H). rewrite (H i Hi), nth_vsc. reflexivity.
    Qed.

    Lemma rec_Ang ro af : o_ext o = XAng ro af 0 (repeat 0 n) (repeat 0 n) (o_mu o) ->
      ((forall k, (k < N)%nat -> Er k = D k - Y k) /\ (forall k, (k < N)%nat -> Y k = dotn n (W k) (X k))) /\
      exists (m : nat -> R) (phi : nat -> nat -> R), m 0%nat = o_mu o /\ (forall i, (i < n)%nat -> phi 0%nat i = 0) /\
        (forall k i, (k < N)%nat -> (i < n)%nat -> phi (S k) i = af * phi k i + before Er k * vbefore X k i) /\
        (forall k, (k < N)%nat -> m (S k) = m k + ro * Er k * dotn n (vbefore X k) (phi (S k))) /\
        forall k i, (k < N)%nat -> (i < n)%nat -> W (S k) i = W k i + m (S k) * Er k * X k i.
    Proof.
      intros Ho.
      set (fi := fun (a : R * rvec * rvec * R) => vadd (vsc af (snd (fst a))) (vsc (fst (fst (fst a))) (snd (fst (fst a))))).
      set (nextm := fun (a : R * rvec * rvec * R) (er : R) (u : rvec) => snd a + ro * er * Rdot (snd (fst (fst a))) (fi a)).
      destruct (rec_general (fun a : R * rvec * rvec * R => XAng ro af (fst (fst (fst a))) (snd (fst (fst a))) (snd (fst a)) (snd a))
        (0, repeat 0 n, repeat 0 n, o_mu o)
        (fun a er u => (er, u, fi a, nextm a er u)) (fun a er u => vsc (nextm a er u * er) u)) as (HL & a & A0 & HA).
      - exact Ho.
      - intros a s Hs. unfold is_AP, is_OCNLMS; rewrite Hs; auto.
      - intros a s d1 u Hs Hu Hmu Hext er. split; [rewrite vsc_length; exact Hu|]. intros s' Hs'.
        pose proof (adapt_Ang n s d1 u _ _ _ _ _ _ Hs Hu Hext) as H. cbv zeta in H. rewrite Hs' in H.
        apply pair_equal_spec in H as (H & _). rewrite H. reflexivity.
      - split; [exact HL|]. exists (fun k => snd (a k)), (fun k i => nth i (snd (fst (a k))) 0).
        assert (HI : forall k, (k <= N)%nat -> fst (fst (fst (a k))) = before Er k /\ snd (fst (fst (a k))) = lx k).
        { intros [|k] Hk; [rewrite A0; auto|]. destruct (HA k ltac:(lia)) as (-> & _). auto. }
        assert (Hlf : forall k, (k < N)%nat -> length (snd (fst (a k))) = n).
        { intros k Hk. destruct (HA k Hk) as (_ & (s & Hs & Es) & _). destruct Hs as (_ & _ & Hs). rewrite Es in Hs. apply Hs. }
        assert (HF : forall k i, (k < N)%nat -> (i < n)%nat -> nth i (fi (a k)) 0 = af * nth i (snd (fst (a k))) 0 + before Er k * vbefore X k i).
        { intros k i Hk Hi. destruct (HI k ltac:(lia)) as (H1 & H2). unfold fi. rewrite H1, H2.
          rewrite nth_vadd by (rewrite !vsc_length, lx_len by lia; auto). rewrite !nth_vsc, lx_nth by exact Hi. reflexivity. }
        split; [rewrite A0; reflexivity|]. split; [intros i _; rewrite A0; apply nth_repeat|]. split; [|split].
        + intros k i Hk Hi. destruct (HA k Hk) as (-> & _). cbn [fst snd]. apply HF; auto.
        + intros k Hk. destruct (HA k Hk) as (-> & _). destruct (HI k ltac:(lia)) as (H1 & H2). cbn [fst snd].
          unfold nextm. rewrite H2. rewrite (Rdot_sumn n).
          2:{ apply lx_len; lia. } 2:{ unfold fi. apply vadd_length; rewrite vsc_length; auto. rewrite H2; apply lx_len; lia. }
          f_equal. f_equal. apply dotn_ext; intros i Hi; [apply lx_nth; exact Hi|reflexivity].
        + intros k i Hk Hi. destruct (HA k Hk) as (-> & _ & H). rewrite (H i Hi), nth_vsc. reflexivity.
    Qed.

    Lemma ben_fi_nth lm le (u v : rvec) i : length u = n -> length v = n -> (i < n)%nat ->
      nth i (ben_fi n lm le u v) 0 = nth i v 0 - lm * nth i u 0 * dotn n (fun j => nth j u 0) (fun j => nth j v 0) + le * nth i u 0.
    Proof.
      intros Hu Hv Hi. unfold ben_fi.
      assert (HsO : shape n n (mscale lm (outer u u))).
      { apply mscale_shape. pose proof (outer_shape solve u u) as H. rewrite Hu in H. exact H. }
      assert (HsM : shape n n (map2 (map2 nsub) (identity n) (mscale lm (outer u u)))).
      { apply map2m_shape; [apply identity_shape|exact HsO]. }
      change (nth i (vadd (mv (map2 (map2 nsub) (identity n) (mscale lm (outer u u))) v) (vsc le u)) 0 =
              nth i v 0 - lm * nth i u 0 * dotn n (fun j => nth j u 0) (fun j => nth j v 0) + le * nth i u 0).
      rewrite nth_vadd by (rewrite vsc_length, mv_len; destruct HsM; congruence). rewrite nth_vsc. f_equal.
      rewrite (mv_ent solve n n) by auto.
      rewrite (sumn_ext n _ (fun j => (if Nat.eqb i j then 1 else 0) * nth j v 0 - lm * nth i u 0 * (nth j u 0 * nth j v 0))).
      - rewrite sumn_minus, sumn_delta by exact Hi. rewrite sumn_scal. reflexivity.
      - intros j Hj. change (map2 (map2 nsub) (identity n) (mscale lm (outer u u))) with (map2 (map2 Rminus) (identity n : rmat) (mscale lm (outer u u))).
        rewrite (map2m_ent n n Rminus) by (auto; apply identity_shape). rewrite identity_ent by auto.
        rewrite (mscale_ent lm _ (length u) (length u)) by (try apply outer_shape; lia). rewrite outer_ent by lia. ring.
    Qed.

    Lemma rec_Benveniste ro : o_ext o = XBenveniste ro 0 (repeat 0 n) (repeat 0 n) (o_mu o) ->
      ((forall k, (k < N)%nat -> Er k = D k - Y k) /\ (forall k, (k < N)%nat -> Y k = dotn n (W k) (X k))) /\
      exists (m : nat -> R) (phi : nat -> nat -> R), m 0%nat = o_mu o /\ (forall i, (i < n)%nat -> phi 0%nat i = 0) /\
        (forall k i, (k < N)%nat -> (i < n)%nat ->
           phi (S k) i = phi k i - m k * vbefore X k i * dotn n (vbefore X k) (phi k) + before Er k * vbefore X k i) /\
        (forall k, (k < N)%nat -> m (S k) = m k + ro * Er k * dotn n (vbefore X k) (phi (S k))) /\
        forall k i, (k < N)%nat -> (i < n)%nat -> W (S k) i = W k i + m (S k) * Er k * X k i.
    Proof.
      intros Ho.
      set (fi := fun (a : R * rvec * rvec * R) => ben_fi n (snd a) (fst (fst (fst a))) (snd (fst (fst a))) (snd (fst a))).
      set (nextm := fun (a : R * rvec * rvec * R) (er : R) (u : rvec) => snd a + ro * er * Rdot (snd (fst (fst a))) (fi a)).
      destruct (rec_general (fun a : R * rvec * rvec * R => XBenveniste ro (fst (fst (fst a))) (snd (fst (fst a))) (snd (fst a)) (snd a))
        (0, repeat 0 n, repeat 0 n, o_mu o)
        (fun a er u => (er, u, fi a, nextm a er u)) (fun a er u => vsc (nextm a er u * er) u)) as (HL & a & A0 & HA).
      - exact Ho.
      - intros a s Hs. unfold is_AP, is_OCNLMS; rewrite Hs; auto.
      - intros a s d1 u Hs Hu Hmu Hext er. split; [rewrite vsc_length; exact Hu|]. intros s' Hs'.
        pose proof (adapt_Benveniste n s d1 u _ _ _ _ _ Hs Hu Hext) as H. cbv zeta in H. rewrite Hs' in H.
        apply pair_equal_spec in H as (H & _). rewrite H. reflexivity.
      - split; [exact HL|]. exists (fun k => snd (a k)), (fun k i => nth i (snd (fst (a k))) 0).
        assert (HI : forall k, (k <= N)%nat -> fst (fst (fst (a k))) = before Er k /\ snd (fst (fst (a k))) = lx k).
        { intros [|k] Hk; [rewrite A0; auto|]. destruct (HA k ltac:(lia)) as (-> & _). auto. }
        assert (Hlf : forall k, (k < N)%nat -> length (snd (fst (a k))) = n).
        { intros k Hk. destruct (HA k Hk) as (_ & (s & Hs & Es) & _). destruct Hs as (_ & _ & Hs). rewrite Es in Hs. apply Hs. }
        split; [rewrite A0; reflexivity|]. split; [intros i _; rewrite A0; apply nth_repeat|]. split; [|split].
        + intros k i Hk Hi. destruct (HA k Hk) as (-> & _). cbn [fst snd]. destruct (HI k ltac:(lia)) as (H1 & H2). unfold fi.
          rewrite ben_fi_nth by (auto; rewrite H2; apply lx_len; lia). rewrite H1, H2, lx_nth by exact Hi. do 3 f_equal.
          apply dotn_ext; intros j Hj; [apply lx_nth; exact Hj|reflexivity].
        + intros k Hk. destruct (HA k Hk) as (-> & _). destruct (HI k ltac:(lia)) as (H1 & H2). cbn [fst snd].
          unfold nextm. rewrite H2. rewrite (Rdot_sumn n).
          2:{ apply lx_len; lia. } 2:{ unfold fi. apply ben_fi_length. rewrite H2; apply lx_len; lia. }
          f_equal. f_equal. apply dotn_ext; intros i Hi; [apply lx_nth; exact Hi|reflexivity].
        + intros k i Hk Hi. destruct (HA k Hk) as (-> & _ & H). rewrite (H i Hi), nth_vsc. reflexivity.
    Qed.

    (** RLS *)
    Lemma rls_R_ent mu (P : rmat) (u : rvec) i j : shape n n P -> length u = n -> (i < n)%nat -> (j < n)%nat ->
      let Px i := sumn n (fun a => ent P i a * nth a u 0) in
      let xP j := sumn n (fun a => nth a u 0 * ent P a j) in
      ent (rls_R mu P u) i j = / mu * (ent P i j - Px i * xP j / (mu + sumn n (fun a => nth a u 0 * Px a))).
    Proof.
      intros HP Hu Hi Hj Px xP. unfold rls_R. rewrite Hu.
      assert (Hm : shape n n (mm n (mm n P (outer u u)) P)) by (apply mm_shape; rewrite (proj1 (mm_shape solve n n P (outer u u) (proj1 HP))); reflexivity).
      set (R2 := nadd mu _).
      assert (HR2 : R2 = mu + sumn n (fun a => nth a u 0 * Px a)).
      { unfold R2. change (mu + Rdot (map (fun c => Rdot u c) (transpose n P)) u = mu + sumn n (fun a => nth a u 0 * Px a)). f_equal.
        rewrite (Rdot_sumn n); [|rewrite map_length; apply transpose_len|exact Hu].
        rewrite (sumn_ext n _ (fun b => sumn n (fun a => nth a u 0 * (ent P a b * nth b u 0)))).
        - rewrite sumn_swap. apply sumn_ext. intros a Ha. unfold Px. rewrite <- sumn_scal. reflexivity.
        - intros b Hb. rewrite (map_nth_lt _ _ _ []) by (rewrite transpose_len; exact Hb). rewrite transpose_nth by exact Hb.
          rewrite (Rdot_sumn n) by (auto; rewrite column_len; apply HP). rewrite <- sumn_scal_r. apply sumn_ext. intros a Ha.
          rewrite column_nth by (rewrite (proj1 HP); exact Ha). ring. }
      rewrite HR2. clear R2 HR2. set (q := mu + _).
      rewrite (mscale_ent _ _ n n) by (auto; apply map2m_shape; auto).
      change (ndiv n1 mu) with (1 / mu). unfold Rdiv at 1. rewrite Rmult_1_l. f_equal.
      change (map2 (map2 (fun r r1 => nsub r (ndiv r1 q))) P (mm n (mm n P (outer u u)) P)) with
             (map2 (map2 (fun r r1 => r - r1 / q)) P (mm n (mm n P (outer u u)) P)).
      rewrite (map2m_ent n n) by auto. f_equal. f_equal.
      rewrite mm_nth by (rewrite ?(proj1 (mm_shape solve n n P (outer u u) (proj1 HP))); auto).
      rewrite (Rdot_sumn n).
      2:{ apply (shape_row n n); auto. apply mm_shape; apply HP. } 2:{ rewrite column_len; apply HP. }
      unfold xP. rewrite <- sumn_scal. apply sumn_ext. intros a Ha. rewrite column_nth by (rewrite (proj1 HP); exact Ha).
      rewrite <- Rmult_assoc. f_equal. change (nth a (nth i (mm n P (outer u u)) []) 0) with (ent (mm n P (outer u u)) i a).
      rewrite mm_nth by (rewrite ?(proj1 HP); auto). rewrite (Rdot_sumn n).
      2:{ apply (shape_row n n); auto. } 2:{ rewrite column_len, (proj1 (outer_shape solve u u)). exact Hu. }
      unfold Px. rewrite <- sumn_scal_r. apply sumn_ext. intros b Hb.
      rewrite column_nth by (rewrite (proj1 (outer_shape solve u u)), Hu; exact Hb). rewrite outer_ent by lia.
      unfold ent. ring.
    Qed.

    Lemma rec_RLS eps : o_ext o = XRLS eps (mscale (1 / eps) (identity n)) ->
      ((forall k, (k < N)%nat -> Er k = D k - Y k) /\ (forall k, (k < N)%nat -> Y k = dotn n (W k) (X k))) /\
      exists P : nat -> nat -> nat -> R,
        (forall i j, (i < n)%nat -> (j < n)%nat -> P 0%nat i j = / eps * delta i j) /\
        (forall k i j, (k < N)%nat -> (i < n)%nat -> (j < n)%nat ->
           let Px i := sumn n (fun a => P k i a * X k a) in
           let xP j := sumn n (fun a => X k a * P k a j) in
           P (S k) i j = / o_mu o * (P k i j - Px i * xP j / (o_mu o + sumn n (fun a => X k a * Px a)))) /\
        forall k i, (k < N)%nat -> (i < n)%nat -> W (S k) i = W k i + sumn n (fun j => P (S k) i j * X k j) * Er k.
    Proof.
      intros Ho.
      assert (Hsh : forall P (s : obj), wf n s -> o_ext s = XRLS eps P -> shape n n P).
      { intros P s (_ & _ & Hs) E. rewrite E in Hs. exact Hs. }
      destruct (rec_general (fun P : rmat => XRLS eps P) (mscale (1 / eps) (identity n))
        (fun P er u => rls_R (o_mu o) P u) (fun P er u => map (fun a => a * er) (mv (rls_R (o_mu o) P u) u))) as (HL & a & A0 & HA).
      - exact Ho.
      - intros a s Hs. unfold is_AP, is_OCNLMS; rewrite Hs; auto.
      - intros P s d1 u Hs Hu Hmu Hext er.
        destruct (Hsh P s Hs Hext) as (S1 & S2). destruct (rls_R_shape (o_mu o) n P u S1 S2 Hu) as (S3 & _).
        split; [rewrite map_length, mv_len; exact S3|]. intros s' Hs'.
        destruct (neqb (o_mu s) n0) eqn:Hq.
        + rewrite (adapt_RLS_mu0 n s d1 u _ _ Hs Hu Hext Hq) in Hs'. discriminate.
        + pose proof (adapt_RLS n s d1 u _ _ Hs Hu Hext Hq) as H. cbv zeta in H. rewrite Hs' in H.
          apply pair_equal_spec in H as (H & _). rewrite H, Hmu. reflexivity.
      - split; [exact HL|]. exists (fun k i j => ent (a k) i j).
        assert (Hs : forall k, (k < N)%nat -> shape n n (a k)).
        { intros k Hk. destruct (HA k Hk) as (_ & (s & Hs & Es) & _). apply (Hsh _ s); auto. }
        split; [|split].
        + intros i j Hi Hj. rewrite A0. rewrite (mscale_ent _ _ n n) by (auto; apply identity_shape).
          rewrite identity_ent by auto. unfold Rdiv. rewrite Rmult_1_l. reflexivity.
        + intros k i j Hk Hi Hj Px xP. destruct (HA k Hk) as (-> & _).
          apply rls_R_ent; auto. apply nth_rows; auto.
        + intros k i Hk Hi. destruct (HA k Hk) as (E & _ & H). rewrite (H i Hi), <- E.
          assert (Hx' : length (nth k x []) = n) by (apply nth_rows; auto).
          destruct (Hs k Hk) as (S1 & S2). destruct (rls_R_shape (o_mu o) n (a k) (nth k x []) S1 S2 Hx') as (S3 & S4).
          rewrite <- E in S3, S4.
          rewrite (map_nth_lt _ _ _ 0) by (rewrite mv_len; lia). rewrite (mv_ent solve n n) by (auto; split; auto). reflexivity.
    Qed.

    (** AP *)
    Lemma push_x_ent K (xm : rmat) (u : rvec) i j : shape n K xm -> length u = n -> (i < n)%nat -> (j < K)%nat ->
      ent (push_x K xm u) i j = match j with O => nth i u 0 | S j' => ent xm i j' end.
    Proof.
      intros (H1 & H2) Hu Hi Hj. unfold push_x, ent.
      rewrite (map2_nth _ _ _ _ 0 [] []) by (rewrite ?Hu; auto). destruct j as [|j]; [reflexivity|]. cbn [nth].
      rewrite nth_firstn by lia. reflexivity.
    Qed.

    Lemma rec_AP K ifc ym0 em0 : good_solver solve -> (1 <= K)%nat ->
      o_ext o = XAP K (repeat (repeat 0 K) n) (repeat 0 K) (mscale ifc (identity K)) (identity K) ym0 em0 ->
      let XA k i j := ago (fun t => X t i) k j in
      let EA k j := ago D k j - sumn n (fun i => XA k i j * W k i) in
      ((forall k, (k < N)%nat -> Er k = D k - Y k) /\ (forall k, (k < N)%nat -> Y k = dotn n (W k) (X k))) /\
      exists G : nat -> nat -> nat -> R,
        (forall k a b, (k < N)%nat -> (a < K)%nat -> (b < K)%nat ->
           sumn K (fun l => (sumn n (fun i => XA k i a * XA k i l) + ifc * delta a l) * G k l b) = delta a b) /\
        forall k i, (k < N)%nat -> (i < n)%nat ->
          W (S k) i = W k i + o_mu o * sumn K (fun a => XA k i a * sumn K (fun b => G k a b * EA k b)).
    Proof.
      intros HG HK Ho XA EA. destruct rec_states as (st & S0 & HS).
      set (Gf := fun k => match o_ext (st k) with
        | XAP K xm dm ii id _ _ => match nsolve (map2 (map2 nadd) (mm K (transpose K (push_x K xm (nth k x []))) (push_x K xm (nth k x []))) ii) id with
                                   | Some G => G | None => [] end
        | _ => [] end).
      assert (HI : forall k, (k <= N)%nat -> exists xm dm ym em, o_ext (st k) = XAP K xm dm (mscale ifc (identity K)) (identity K) ym em /\
        shape n K xm /\ length dm = K /\
        (forall i j, (i < n)%nat -> (j < K)%nat -> ent xm i j = if (j <? k)%nat then X (k - 1 - j)%nat i else 0) /\
        (forall j, (j < K)%nat -> nth j dm 0 = if (j <? k)%nat then D (k - 1 - j)%nat else 0)).
      { induction k as [|k IH]; intros Hk.
        - rewrite S0. do 4 eexists. split; [exact Ho|]. split; [|split; [apply repeat_length|split]].
          + split; [apply repeat_length|]. apply Forall_forall. intros r Hr. apply repeat_spec in Hr. subst r. apply repeat_length.
          + intros i j Hi Hj. unfold ent. rewrite (nth_indep _ [] (repeat 0 K)) by (rewrite repeat_length; exact Hi). rewrite !nth_repeat. reflexivity.
          + intros j Hj. apply nth_repeat.
        - destruct IH as (xm & dm & ym & em & E & Hsx & Hld & H1 & H2); [lia|].
          destruct (HS k ltac:(lia)) as (Q1 & Q2 & Q3 & _ & _ & _ & _ & Q8).
          pose proof (adapt_AP_step n (st k) (D k) (nth k x []) _ _ _ _ _ _ _ Q1 Q8 E) as HA. cbv zeta in HA. rewrite Q3 in HA.
          destruct (nsolve _ _) as [G|]; [|discriminate]. apply pair_equal_spec in HA as (HA & _). rewrite HA. cbn [set_w set_ext o_ext].
          do 4 eexists. split; [reflexivity|]. split; [|split; [|split]].
          + split; [apply push_x_length; auto; apply Hsx|]. apply push_x_rows; auto. apply Hsx.
          + apply push_d_length; auto.
          + intros i j Hi Hj. rewrite push_x_ent by auto. destruct j as [|j].
            * replace (S k - 1 - 0)%nat with k by lia. reflexivity.
            * rewrite H1 by (auto; lia). replace (S k - 1 - S j)%nat with (k - 1 - j)%nat by lia. reflexivity.
          + intros j Hj. unfold push_d. destruct j as [|j].
            * replace (S k - 1 - 0)%nat with k by lia. reflexivity.
            * cbn [nth]. rewrite nth_firstn by lia. rewrite H2 by lia. replace (S k - 1 - S j)%nat with (k - 1 - j)%nat by lia. reflexivity. }
      assert (HY : forall k, (k < N)%nat -> Y k = dotn n (W k) (X k)).
      { intros k Hk. destruct (HS k Hk) as (Q1 & _ & _ & Q4 & _ & Q6 & _ & Q8). destruct (HI k ltac:(lia)) as (xm & dm & ym & em & E & _).
        rewrite Q6. unfold pred_out, is_AP. rewrite E. change (Rdot (nth k x []) (o_w (st k)) = dotn n (W k) (X k)).
        rewrite Rdot_comm, Q4. apply Rdot_sumn; auto. rewrite <- Q4. apply Q1. }
      assert (HStep : forall k, (k < N)%nat -> exists xm' dm', shape n K xm' /\ length dm' = K /\
        (forall i j, (i < n)%nat -> (j < K)%nat -> ent xm' i j = XA k i j) /\ (forall j, (j < K)%nat -> nth j dm' 0 = ago D k j) /\
        shape K K (Gf k) /\ mm K (map2 (map2 Rplus) (mm K (transpose K xm') xm') (mscale ifc (identity K))) (Gf k) = identity K /\
        wrow w (o_w o') (S k) = vadd (wrow w (o_w o') k) (vsc (o_mu o) (mv xm' (mv (Gf k) (vsub dm' (mv (transpose K xm') (wrow w (o_w o') k))))))).
      { intros k Hk. destruct (HS k Hk) as (Q1 & Q2 & Q3 & Q4 & Q5 & Q6 & Q7 & Q8).
        destruct (HI k ltac:(lia)) as (xm & dm & ym & em & E & Hsx & Hld & H1 & H2).
        pose proof (adapt_AP_step n (st k) (D k) (nth k x []) _ _ _ _ _ _ _ Q1 Q8 E) as HA. cbv zeta in HA. rewrite Q3 in HA.
        exists (push_x K xm (nth k x [])), (push_d K dm (D k)).
        assert (Hs' : shape n K (push_x K xm (nth k x []))).
        { split; [apply push_x_length; auto; apply Hsx|]. apply push_x_rows; auto. apply Hsx. }
        split; [exact Hs'|]. split; [apply push_d_length; auto|]. split; [|split].
        - intros i j Hi Hj. rewrite push_x_ent by auto. unfold XA, ago. destruct j as [|j].
          + cbn [Nat.leb]. rewrite Nat.sub_0_r. reflexivity.
          + rewrite H1 by (auto; lia). replace (S j <=? k)%nat with (j <? k)%nat by reflexivity.
            replace (k - 1 - j)%nat with (k - S j)%nat by lia. reflexivity.
        - intros j Hj. unfold push_d, ago. destruct j as [|j].
          + cbn [Nat.leb nth]. rewrite Nat.sub_0_r. reflexivity.
          + cbn [nth]. rewrite nth_firstn by lia. rewrite H2 by lia. replace (S j <=? k)%nat with (j <? k)%nat by reflexivity.
            replace (k - 1 - j)%nat with (k - S j)%nat by lia. reflexivity.
        - unfold Gf. rewrite E. destruct (nsolve _ _) as [G|] eqn:EG; [|discriminate].
          apply pair_equal_spec in HA as (HA & _).
          assert (HsM : shape K K (map2 (map2 nadd) (mm K (transpose K (push_x K xm (nth k x []))) (push_x K xm (nth k x []))) (mscale ifc (identity K)))).
          { apply map2m_shape; [|apply mscale_shape, identity_shape]. apply mm_shape. apply transpose_len. }
          destruct (HG K _ _ _ HsM (identity_shape solve K) EG) as (HG1 & HG2).
          split; [exact HG1|]. split; [exact HG2|]. rewrite <- Q4, <- Q5, HA, <- Q2. reflexivity. }
      split; [split; [intros k Hk; apply (HS k Hk)|exact HY]|].
      exists (fun k => ent (Gf k)). split.
      - intros k a b Hk Ha Hb. destruct (HStep k Hk) as (xm & dm & Hsx & Hld & Hx1 & Hd1 & HG1 & HG2 & _).
        pose proof (f_equal (fun A => ent A a b) HG2) as H. cbv beta in H. rewrite identity_ent in H by auto. unfold delta at 2. rewrite <- H. clear H.
        assert (HsT : shape K K (mm K (transpose K xm) xm)) by (apply mm_shape, transpose_len).
        assert (HsM : shape K K (map2 (map2 Rplus) (mm K (transpose K xm) xm) (mscale ifc (identity K)))).
        { apply map2m_shape; [exact HsT|apply mscale_shape, identity_shape]. }
        rewrite mm_nth by (rewrite ?(proj1 HsM); auto). rewrite (Rdot_sumn K).
        2:{ apply (shape_row K K); auto. } 2:{ rewrite column_len. apply HG1. }
        apply sumn_ext. intros l Hl. rewrite column_nth by (rewrite (proj1 HG1); auto). f_equal.
        change (sumn n (fun i => XA k i a * XA k i l) + ifc * delta a l =
                ent (map2 (map2 Rplus) (mm K (transpose K xm) xm) (mscale ifc (identity K))) a l).
        rewrite (map2m_ent K K) by (auto; apply mscale_shape, identity_shape).
        rewrite (mscale_ent _ _ K K) by (auto; apply identity_shape). rewrite identity_ent by auto. f_equal.
        rewrite mm_nth by (rewrite ?transpose_len; auto). rewrite transpose_nth by auto.
        rewrite (Rdot_sumn n) by (rewrite column_len; apply Hsx). apply sumn_ext. intros i Hi.
        rewrite !column_nth by (rewrite (proj1 Hsx); auto). rewrite !Hx1 by auto. reflexivity.
      - intros k i Hk Hi. destruct (HStep k Hk) as (xm & dm & Hsx & Hld & Hx1 & Hd1 & HG1 & HG2 & HW).
        assert (Hlw : length (wrow w (o_w o') k) = n).
        { destruct (HS k Hk) as (Q1 & _ & _ & Q4 & _). rewrite <- Q4. apply Q1. }
        assert (Hly : length (mv (transpose K xm) (wrow w (o_w o') k)) = K) by (rewrite mv_len; apply transpose_len).
        unfold W at 1. rewrite HW. rewrite nth_vadd by (rewrite vsc_length, mv_len; destruct Hsx; congruence).
        rewrite nth_vsc. f_equal. f_equal.
        rewrite (mv_ent solve n K) by (auto; rewrite mv_len; apply HG1). apply sumn_ext. intros a Ha. rewrite Hx1 by auto. f_equal.
        rewrite (mv_ent solve K K) by (auto; apply vsub_length; auto). apply sumn_ext. intros b Hb. f_equal.
        rewrite nth_vsub by congruence. rewrite Hd1 by auto. unfold EA. f_equal.
        rewrite mv_nth by (rewrite transpose_len; auto). rewrite transpose_nth by auto.
        rewrite (Rdot_sumn n) by (auto; rewrite column_len; apply Hsx). apply sumn_ext. intros l Hl.
        rewrite column_nth by (rewrite (proj1 Hsx); auto). rewrite Hx1 by auto. reflexivity.
    Qed.

    (** OCNLMS *)
    Lemma mean_sumn (v : rvec) : mean v = sumn (length v) (fun i => nth i v 0) / INR (length v).
    Proof. unfold mean. rewrite INR_IZR_INZ. change (nsum v) with (Rsum v). rewrite Rsum_sumn. reflexivity. Qed.

    Lemma Rsum_app3 (u v : rvec) : Rsum (u ++ v) = Rsum u + Rsum v.
    Proof. induction u as [|a u IH]; cbn [app Rsum]; [lra|rewrite IH; lra]. Qed.

    Lemma sumn_delete (v : rvec) i : (i < length v)%nat ->
      sumn (length (delete i v)) (fun j => nth j (delete i v) 0) = sumn (length v) (fun j => nth j v 0) - nth i v 0.
    Proof.
      intros Hi. rewrite <- !Rsum_sumn. unfold delete. rewrite Rsum_app3.
      rewrite <- (firstn_skipn i v) at 3. rewrite Rsum_app3.
      assert (E : skipn i v = nth i v 0 :: skipn (S i) v).
      { revert i Hi. induction v as [|a v IH]; intros [|i] Hi; cbn [length] in Hi; try lia; [reflexivity|]. cbn [skipn nth]. apply IH; lia. }
      rewrite E. cbn [Rsum]. lra.
    Qed.

    Lemma oc_read_x mem c (mx : rmat) (md : rvec) i : (1 <= mem)%nat -> shape mem n mx -> (i < n)%nat ->
      nth i (snd (oc_read n (c <? mem)%nat mx md (c mod mem))) 0 = oc_offset_x mem c (fun s => ent mx s i).
    Proof.
      intros Hm (S1 & S2) Hi. unfold oc_read, oc_offset_x.
      assert (HM : forall A : rmat, nth i (mean0 n A) 0 = sumn (length A) (fun s => ent A s i) / INR (length A)).
      { intros A. unfold mean0. rewrite (map_nth_lt _ _ _ []) by (rewrite transpose_len; exact Hi). rewrite transpose_nth by exact Hi.
        rewrite mean_sumn, column_len. f_equal. apply sumn_ext. intros s Hs. apply column_nth; exact Hs. }
      destruct (Nat.ltb_spec c mem) as [Hc|Hc].
      - rewrite Nat.mod_small by exact Hc. destruct (Nat.eqb_spec c 0) as [->|Hc0]; cbn [snd].
        + apply nth_repeat.
        + rewrite HM, firstn_length, S1. rewrite Nat.min_l by lia. f_equal. apply sumn_ext. intros s Hs.
          unfold ent. rewrite nth_firstn by lia. reflexivity.
      - cbn [snd]. rewrite HM, S1. reflexivity.
    Qed.
    Lemma oc_read_d mem c (mx : rmat) (md : rvec) : (1 <= mem)%nat -> length md = mem ->
      fst (oc_read n (c <? mem)%nat mx md (c mod mem)) = oc_offset_d mem c (fun s => nth s md 0).
    Proof.
      intros Hm Hl. unfold oc_read, oc_offset_d. destruct (Nat.ltb_spec c mem) as [Hc|Hc].
      - rewrite Nat.mod_small by exact Hc. destruct (Nat.eqb_spec c 0) as [->|Hc0]; cbn [fst]; [reflexivity|].
        rewrite mean_sumn, firstn_length, Hl. rewrite Nat.min_l by lia. f_equal. apply sumn_ext. intros s Hs. apply nth_firstn; lia.
      - cbn [fst]. pose proof (Nat.mod_upper_bound c mem ltac:(lia)) as Hb.
        rewrite mean_sumn, sumn_delete by lia. rewrite Hl. f_equal. f_equal. unfold delete.
        rewrite app_length, firstn_length, skipn_length, Hl. lia.
    Qed.

    Lemma rec_OCNLMS eps mem : o_ext o = XOCNLMS eps mem true (repeat (repeat 0 n) mem) (repeat 0 mem) 0 ->
      exists t : nat -> R,
      let mx k i := oc_offset_x mem (2 * k) (slot mem (fun j => X j i) k) in
      let md k := oc_offset_d mem (2 * k) (slot mem t k) in
      let mx' k i := oc_offset_x mem (2 * k + 1) (slot mem (fun j => X j i) (S k)) in
      let md' k := oc_offset_d mem (2 * k + 1) (slot mem t k) in
      let u k i := X k i - mx' k i in
      (forall k, (k < N)%nat -> Er k = D k - Y k) /\
      (forall k, (k < N)%nat -> Y k = sumn n (fun i => W k i * (X k i - mx k i)) + md k) /\
      (forall k, (k < N)%nat -> t k = Er k + (dotn n (W k) (u k) + md' k)) /\
      forall k i, (k < N)%nat -> (i < n)%nat -> W (S k) i = W k i + o_mu o / (eps + dotn n (u k) (u k)) * Er k * u k i.
    Proof.
      intros Ho. pose proof Hwf as (_ & _ & Hm). rewrite Ho in Hm. destruct Hm as (Hm & _).
      destruct rec_states as (st & S0 & HS).
      set (t := fun k => match o_ext (st k) with
        | XOCNLMS _ mem em mx md idx =>
            Er k + oc_y n (o_w (st k)) (oc_em mem em idx) (set_nth (oc_idx mem idx) (nth k x []) mx) md (oc_idx mem idx) (nth k x [])
        | _ => 0 end).
      assert (HI : forall k, (k <= N)%nat -> exists mx md,
        o_ext (st k) = XOCNLMS eps mem (2 * k <? mem)%nat mx md ((2 * k) mod mem) /\ shape mem n mx /\ length md = mem /\
        (forall s i, (s < mem)%nat -> (i < n)%nat -> ent mx s i = slot mem (fun j => X j i) k s) /\
        (forall s, (s < mem)%nat -> nth s md 0 = slot mem t k s)).
      { induction k as [|k IH]; intros Hk.
        - rewrite S0. do 2 eexists. split; [rewrite Ho|].
          { rewrite Nat.mul_0_r, Nat.mod_0_l by lia. replace (0 <? mem)%nat with true by (symmetry; apply Nat.ltb_lt; lia). reflexivity. }
          split; [|split; [apply repeat_length|split]].
          + split; [apply repeat_length|]. apply Forall_forall. intros r Hr. apply repeat_spec in Hr. subst r. apply repeat_length.
          + intros s i Hs Hi. unfold ent. rewrite (nth_indep _ [] (repeat 0 n)) by (rewrite repeat_length; exact Hs). rewrite !nth_repeat. reflexivity.
          + intros s Hs. apply nth_repeat.
        - destruct IH as (mx & md & E & Hsx & Hld & H1 & H2); [lia|].
          destruct (HS k ltac:(lia)) as (Q1 & Q2 & Q3 & _ & _ & Q6 & Q7 & Q8).
          pose proof (adapt_OCNLMS n (st k) (D k) (nth k x []) _ _ _ _ _ _ Q1 Q8 E) as HA. cbv zeta in HA. rewrite Q3 in HA.
          apply pair_equal_spec in HA as (HA & _). rewrite HA. cbn [set_w set_ext o_ext].
          rewrite !oc_idx_tick, !oc_em_tick by exact Hm. replace (2 * S k)%nat with (2 * k + 1 + 1)%nat by lia.
          pose proof (Nat.mod_upper_bound (2 * k + 1) mem ltac:(lia)) as Hb.
          do 2 eexists. split; [reflexivity|]. split; [|split; [|split]].
          + split; [rewrite set_nth_length; apply Hsx|]. apply set_nth_Forall; [apply Hsx|exact Q8].
          + rewrite set_nth_length. exact Hld.
          + intros s i Hs Hi. unfold ent. rewrite nth_set_nth by (rewrite (proj1 Hsx); exact Hb). cbn [slot].
            rewrite Nat.eqb_sym. destruct (Nat.eqb _ _); [reflexivity|]. apply H1; auto.
          + intros s Hs. rewrite nth_set_nth by (rewrite Hld; exact Hb). cbn [slot].
            rewrite Nat.eqb_sym. destruct (Nat.eqb _ _); [|apply H2; auto].
            unfold t. rewrite E. rewrite oc_idx_tick, oc_em_tick by exact Hm.
            rewrite Q7, Q6, (pred_out_OCNLMS n _ _ _ _ _ _ _ _ Q1 Q8 E). reflexivity. }
      exists t. intros mx md mx' md' u.
      assert (HX : forall k i (A : rmat) kk c dd, shape mem n A -> (i < n)%nat -> (k < N)%nat ->
        (forall s i, (s < mem)%nat -> (i < n)%nat -> ent A s i = slot mem (fun j => X j i) kk s) ->
        nth i (map2 nsub (nth k x []) (snd (oc_read n (c <? mem)%nat A dd (c mod mem)))) 0 =
        X k i - oc_offset_x mem c (slot mem (fun j => X j i) kk)).
      { intros k i A kk c dd HsA Hi Hk HA. destruct (HS k Hk) as (_ & _ & _ & _ & _ & _ & _ & Q8).
        change (nth i (vsub (nth k x []) (snd (oc_read n (c <? mem)%nat A dd (c mod mem)))) 0 = X k i - oc_offset_x mem c (slot mem (fun j => X j i) kk)).
        rewrite nth_vsub by (rewrite oc_read_length; exact Q8). f_equal. rewrite oc_read_x by auto.
        unfold oc_offset_x. destruct (Nat.ltb_spec c mem) as [Hc|Hc].
        - destruct (Nat.eqb c 0); [reflexivity|]. f_equal. apply sumn_ext. intros s Hs. apply HA; [lia|exact Hi].
        - f_equal. apply sumn_ext. intros s Hs. apply HA; [lia|exact Hi]. }
      assert (HDd : forall (dd : rvec) k c (A : rmat), length dd = mem -> (forall s, (s < mem)%nat -> nth s dd 0 = slot mem t k s) ->
        fst (oc_read n (c <? mem)%nat A dd (c mod mem)) = oc_offset_d mem c (slot mem t k)).
      { intros dd k c A Hl H. rewrite oc_read_d by auto. unfold oc_offset_d. destruct (Nat.ltb_spec c mem) as [Hc|Hc].
        - destruct (Nat.eqb c 0); [reflexivity|]. f_equal. apply sumn_ext. intros s Hs. apply H. lia.
        - pose proof (Nat.mod_upper_bound c mem ltac:(lia)) as Hb. rewrite H by exact Hb. f_equal. f_equal. apply sumn_ext. intros s Hs. apply H. lia. }
      assert (HU : forall k, (k < N)%nat -> exists A md0, o_ext (st k) = XOCNLMS eps mem (2 * k <? mem)%nat A md0 ((2 * k) mod mem) /\
        length md0 = mem /\ shape mem n (set_nth ((2 * k + 1) mod mem) (nth k x []) A) /\
        (forall i, (i < n)%nat -> nth i (map2 nsub (nth k x []) (snd (oc_read n (2 * k <? mem)%nat A md0 ((2 * k) mod mem)))) 0 = X k i - mx k i) /\
        fst (oc_read n (2 * k <? mem)%nat A md0 ((2 * k) mod mem)) = md k /\
        (forall i, (i < n)%nat -> nth i (map2 nsub (nth k x []) (snd (oc_read n (2 * k + 1 <? mem)%nat (set_nth ((2 * k + 1) mod mem) (nth k x []) A) md0 ((2 * k + 1) mod mem)))) 0 = u k i) /\
        fst (oc_read n (2 * k + 1 <? mem)%nat (set_nth ((2 * k + 1) mod mem) (nth k x []) A) md0 ((2 * k + 1) mod mem)) = md' k).
      { intros k Hk. destruct (HI k ltac:(lia)) as (A & md0 & E & Hsx & Hld & H1 & H2). exists A, md0.
        destruct (HS k Hk) as (_ & _ & _ & _ & _ & _ & _ & Q8).
        pose proof (Nat.mod_upper_bound (2 * k + 1) mem ltac:(lia)) as Hb.
        assert (HsA : shape mem n (set_nth ((2 * k + 1) mod mem) (nth k x []) A)).
        { split; [rewrite set_nth_length; apply Hsx|]. apply set_nth_Forall; [apply Hsx|exact Q8]. }
        split; [exact E|]. split; [exact Hld|]. split; [exact HsA|]. split; [|split; [|split]].
        - intros i Hi. apply HX; auto.
        - apply HDd; auto.
        - intros i Hi. unfold u, mx'. apply (HX k i _ (S k) (2 * k + 1)%nat md0); auto.
          intros s j Hs Hj. unfold ent. rewrite nth_set_nth by (rewrite (proj1 Hsx); exact Hb). cbn [slot].
          rewrite Nat.eqb_sym. destruct (Nat.eqb _ _); [reflexivity|]. apply H1; auto.
        - apply HDd; auto. }
      assert (HO : forall k (v : rvec) g, (k < N)%nat -> length v = n -> (forall i, (i < n)%nat -> nth i v 0 = g i) ->
        Rdot (o_w (st k)) v = dotn n (W k) g).
      { intros k v g Hk Hv Hg. destruct (HS k Hk) as (Q1 & _ & _ & Q4 & _). rewrite (Rdot_sumn n) by (auto; apply Q1).
        apply sumn_ext. intros i Hi. rewrite Hg, Q4 by exact Hi. reflexivity. }
      split; [intros k Hk; apply (HS k Hk)|]. split; [|split].
      - intros k Hk. destruct (HU k Hk) as (A & md0 & E & Hld & HsA & H1 & H2 & H3 & H4).
        destruct (HS k Hk) as (Q1 & _ & _ & _ & _ & Q6 & _ & Q8).
        rewrite Q6, (pred_out_OCNLMS n _ _ _ _ _ _ _ _ Q1 Q8 E). unfold oc_y. rewrite H2.
        change (Rdot (o_w (st k)) (map2 nsub (nth k x []) (snd (oc_read n (2 * k <? mem)%nat A md0 ((2 * k) mod mem)))) + md k =
                sumn n (fun i => W k i * (X k i - mx k i)) + md k). f_equal.
        apply (HO k _ (fun i => X k i - mx k i)); auto. apply map2_length_eq; auto. apply oc_read_length.
      - intros k Hk. destruct (HU k Hk) as (A & md0 & E & Hld & HsA & H1 & H2 & H3 & H4).
        destruct (HS k Hk) as (Q1 & _ & _ & _ & _ & Q6 & _ & Q8).
        unfold t at 1. rewrite E, oc_idx_tick, oc_em_tick by exact Hm. f_equal. unfold oc_y. rewrite H4.
        change (Rdot (o_w (st k)) (map2 nsub (nth k x []) (snd (oc_read n (2 * k + 1 <? mem)%nat (set_nth ((2 * k + 1) mod mem) (nth k x []) A) md0 ((2 * k + 1) mod mem)))) + md' k =
                dotn n (W k) (u k) + md' k). f_equal.
        apply HO; auto. apply map2_length_eq; auto. apply oc_read_length.
      - intros k i Hk Hi. destruct (HU k Hk) as (A & md0 & E & Hld & HsA & H1 & H2 & H3 & H4).
        destruct (HS k Hk) as (Q1 & Q2 & Q3 & Q4 & Q5 & Q6 & Q7 & Q8).
        pose proof (adapt_OCNLMS n (st k) (D k) (nth k x []) _ _ _ _ _ _ Q1 Q8 E) as HA. cbv zeta in HA. rewrite Q3 in HA.
        apply pair_equal_spec in HA as (HA & _). rewrite oc_idx_tick, oc_em_tick in HA by exact Hm.
        set (dx := map2 nsub (nth k x []) (snd (oc_read n (2 * k + 1 <? mem)%nat (set_nth ((2 * k + 1) mod mem) (nth k x []) A) md0 ((2 * k + 1) mod mem)))) in *.
        assert (Hdx : length dx = n) by (apply map2_length_eq; auto; apply oc_read_length).
        assert (HE : Er k = D k - oc_y n (o_w (st k)) (2 * k <? mem)%nat A md0 ((2 * k) mod mem) (nth k x [])).
        { rewrite Q7, Q6, (pred_out_OCNLMS n _ _ _ _ _ _ _ _ Q1 Q8 E). reflexivity. }
        unfold W at 1. rewrite <- Q5, HA. cbn [set_w o_w].
        change (nth i (vadd (o_w (st k)) (vsc (o_mu (st k) / (eps + Rdot dx dx) * (D k - oc_y n (o_w (st k)) (2 * k <? mem)%nat A md0 ((2 * k) mod mem) (nth k x []))) dx)) 0 =
          W k i + o_mu o / (eps + dotn n (u k) (u k)) * Er k * u k i).
        rewrite <- HE, Q2. rewrite nth_vadd by (rewrite vsc_length, Hdx; apply Q1). rewrite nth_vsc, H3, Q4 by exact Hi.
        replace (Rdot dx dx) with (dotn n (u k) (u k)); [reflexivity|].
        rewrite (Rdot_sumn n) by auto. symmetry. apply dotn_ext; exact H3.
    Qed.
  End Run.

  (** ** The constructor *)
  Lemma Q2R_lit (p q : positive) : Q2R (QArith_base.Qmake (Zpos p) q) = IZR (Zpos p) / IZR (Zpos q).
  Proof. reflexivity. Qed.

  Lemma new_filter_rate rng c (kw : kwargs R) n (o : obj) : kw_n kw = Some (Z.of_nat n) -> new_filter rng c kw = Ok o ->
    o_mu o = rate c kw /\ o_hist o = None /\ init_ext c kw n (rate c kw) = Ok (o_ext o).
  Proof.
    intros Hn. unfold new_filter. destruct (kw_other kw); [discriminate|]. destruct (existsb _ _); [discriminate|]. rewrite Hn.
    destruct (match kw_mu kw with Some _ => _ | None => _ end) as [mu|] eqn:Em; [|discriminate].
    assert (Hr : mu = rate c kw).
    { unfold rate, par. destruct (kw_mu kw) as [m|]; [injection Em as <-; destruct c; reflexivity|].
      destruct c; cbn [default_mu] in Em; try discriminate; injection Em as <-; unfold nofQ; cbn [RNum]; rewrite Q2R_lit; lra. }
    unfold init_base. destruct (Z.of_nat n =? -1)%Z; [discriminate|].
    destruct (init_weights _ _ _) as [wv|]; cbn [rmap rbind]; [|discriminate]. rewrite Nat2Z.id, Hr.
    destruct (init_ext c kw n (rate c kw)) as [x|] eqn:E; cbn [rmap]; [|discriminate]. intros [= <-]. auto.
  Qed.

  Lemma opt_par (g : option R) (p q : positive) : opt g (nofQ (QArith_base.Qmake (Zpos p) q)) = par g (IZR (Zpos p) / IZR (Zpos q)).
  Proof. destruct g; reflexivity. Qed.

  (** ** C65 *)
  Theorem C65_run_follows_the_recursion : forall rng c (kw : kwargs R) n (o o' : obj) d x y e w,
    rng_ok rng -> sane_kw kw -> kw_n kw = Some (Z.of_nat n) -> new_filter rng c kw = Ok o ->
    (c = KAP -> good_solver solve) -> (c = KOCNLMS -> kw_mem kw <> Some 1%nat) ->
    rows_of n x -> run d x o = (o', Ok (y, e, w)) ->
    nth 0 (w ++ [o_w o']) [] = o_w o /\
    published c kw n (length x) (fun k => nth k d 0) (fun k i => nth i (nth k x []) 0)
      (fun k => nth k y 0) (fun k => nth k e 0) (fun k i => nth i (nth k (w ++ [o_w o']) []) 0).
  Proof.
    intros rng c kw n o o' d x y e w Hrng Hkw Hn Ho Hap Hoc Hx HR.
    pose proof (new_filter_wf rng c kw n o Hrng Hkw Hn Ho) as Hwf.
    destruct (new_filter_rate rng c kw n o Hn Ho) as (Hmu & _ & Hext).
    assert (HN : (0 < length x)%nat).
    { destruct x as [|x0 x]; [|cbn; lia]. exfalso. unfold run in HR. destruct d; cbn in HR; discriminate. }
    split.
    { destruct (rec_states n o o' d x y e w Hwf Hx HR) as (st & S0 & HS). destruct (HS 0%nat HN) as (_ & _ & _ & H & _).
      rewrite S0 in H. symmetry. exact H. }
    unfold published.
    change (fun k i => nth i (nth k (w ++ [o_w o']) []) 0) with (fun k i => nth i (wrow w (o_w o') k) 0).
    rewrite <- Hmu in Hext |- *.
    destruct c; cbn [init_ext] in Hext; cbv zeta.
    - (* AP *) injection Hext as Hext. symmetry in Hext.
      apply (rec_AP n o o' d x y e w Hwf Hx HR _ _ [] []).
      + apply Hap; reflexivity.
      + destruct Hkw as (_ & H). unfold par. destruct (kw_order kw) as [k|]; [apply H; reflexivity|lia].
      + rewrite Hext, opt_par. reflexivity.
    - (* GMCC *) injection Hext as Hext. symmetry in Hext. rewrite opt_par in Hext.
      apply (rec_textbook n o o' d x y e w Hwf Hx HR (fun e v i => o_mu o * par (kw_lambd kw) (3 / 100) * par (kw_alpha kw) 2 *
         exp (- par (kw_lambd kw) (3 / 100) * Rpowf (Rabs e) (par (kw_alpha kw) 2)) * Rpowf (Rabs e) (par (kw_alpha kw) 2 - 1) * Rsgn e * nth i v 0)).
      + intros; rewrite Hext; discriminate.
      + intros e1 v dw i Hv Hi. rewrite Hext. cbn [textbook]. intros [= <-]. rewrite nth_vsc. reflexivity.
    - (* GNGD *) injection Hext as Hext. symmetry in Hext. apply (rec_GNGD n o o' d x y e w Hwf Hx HR).
      rewrite Hext, !opt_par. replace (1 / 1) with 1 by lra. reflexivity.
    - (* Llncosh *) injection Hext as Hext. symmetry in Hext.
      apply (rec_textbook n o o' d x y e w Hwf Hx HR (fun e v i => o_mu o * tanh (par (kw_lambd kw) 3 * e) * nth i v 0)).
      + intros; rewrite Hext; discriminate.
      + intros e1 v dw i Hv Hi. rewrite Hext. cbn [textbook]. intros [= <-]. rewrite nth_vsc. reflexivity.
    - (* LMF *) injection Hext as Hext. symmetry in Hext.
      apply (rec_textbook n o o' d x y e w Hwf Hx HR (fun e v i => o_mu o * e ^ 3 * nth i v 0)).
      + intros; rewrite Hext; discriminate.
      + intros e1 v dw i Hv Hi. rewrite Hext. cbn [textbook]. intros [= <-]. apply nth_vsc.
    - (* LMS *) injection Hext as Hext. symmetry in Hext.
      apply (rec_textbook n o o' d x y e w Hwf Hx HR (fun e v i => o_mu o * e * nth i v 0)).
      + intros; rewrite Hext; discriminate.
      + intros e1 v dw i Hv Hi. rewrite Hext. cbn [textbook]. intros [= <-]. apply nth_vsc.
    - (* NLMF *) injection Hext as Hext. symmetry in Hext. rewrite opt_par in Hext.
      apply (rec_textbook n o o' d x y e w Hwf Hx HR
        (fun e v i => o_mu o / (par (kw_eps kw) (1 / 1000) + dotn n (fun i => nth i v 0) (fun i => nth i v 0)) * e ^ 3 * nth i v 0)).
      + intros; rewrite Hext; discriminate.
      + intros e1 v dw i Hv Hi. rewrite Hext. cbn [textbook]. intros [= <-]. rewrite nth_vsc. unfold normsq. rewrite (dot_lists n) by auto. reflexivity.
    - (* NLMS *) injection Hext as Hext. symmetry in Hext. rewrite opt_par in Hext.
      apply (rec_textbook n o o' d x y e w Hwf Hx HR
        (fun e v i => o_mu o / (par (kw_eps kw) (1 / 1000) + dotn n (fun i => nth i v 0) (fun i => nth i v 0)) * e * nth i v 0)).
      + intros; rewrite Hext; discriminate.
      + intros e1 v dw i Hv Hi. rewrite Hext. cbn [textbook]. intros [= <-]. rewrite nth_vsc. unfold normsq. rewrite (dot_lists n) by auto. reflexivity.
    - (* NSSLMS *) injection Hext as Hext. symmetry in Hext. rewrite opt_par in Hext.
      apply (rec_textbook n o o' d x y e w Hwf Hx HR
        (fun e v i => o_mu o / (par (kw_eps kw) (1 / 1000) + dotn n (fun i => nth i v 0) (fun i => nth i v 0)) * Rsgn (nth i v 0) * Rsgn e)).
      + intros; rewrite Hext; discriminate.
      + intros e1 v dw i Hv Hi. rewrite Hext. cbn [textbook]. intros [= <-]. rewrite (map_nth_lt _ _ _ 0) by lia.
        unfold normsq. rewrite (dot_lists n) by auto. reflexivity.
    - (* OCNLMS *) injection Hext as Hext. symmetry in Hext. apply (rec_OCNLMS n o o' d x y e w Hwf Hx HR).
      rewrite Hext, opt_par. replace (1 / 1) with 1 by lra. reflexivity.
    - (* RLS *) destruct (neqb _ _); [discriminate|]. injection Hext as Hext. symmetry in Hext.
      apply (rec_RLS n o o' d x y e w Hwf Hx HR). rewrite Hext, opt_par. reflexivity.
    - (* SSLMS *) injection Hext as Hext. symmetry in Hext.
      apply (rec_textbook n o o' d x y e w Hwf Hx HR (fun e v i => o_mu o * Rsgn (nth i v 0) * Rsgn e)).
      + intros; rewrite Hext; discriminate.
      + intros e1 v dw i Hv Hi. rewrite Hext. cbn [textbook]. intros [= <-]. rewrite (map_nth_lt _ _ _ 0) by lia. reflexivity.
    - (* Ang *) injection Hext as Hext. symmetry in Hext. apply (rec_Ang n o o' d x y e w Hwf Hx HR). rewrite Hext, !opt_par. reflexivity.
    - (* Benveniste *) injection Hext as Hext. symmetry in Hext. apply (rec_Benveniste n o o' d x y e w Hwf Hx HR). rewrite Hext, !opt_par. reflexivity.
    - (* Mathews *) injection Hext as Hext. symmetry in Hext. apply (rec_Mathews n o o' d x y e w Hwf Hx HR). rewrite Hext, !opt_par. reflexivity.
  Qed.
End S.

(** *** The hypotheses can be met, for every class *)
Definition rec_kw (c : kind) : kwargs R :=
  mkKw (Some 2%Z) (Some (1 / 2)) (Some (WVec [1; 1])) None None None None None
       (match c with KAP => Some 2%nat | _ => None end) (match c with KAP => Some (1 / 2) | _ => None end) None false.
Example C65_hypotheses : forall c, let NT := RNum rsolve in
  rng_ok (T := R) (fun k => repeat 0 k) /\ sane_kw (rec_kw c) /\ good_solver rsolve /\
  exists (o o' : obj R) y e w, new_filter (fun k => repeat 0 k) c (rec_kw c) = Ok o /\
    run [1; 2] [[1; 0]; [1; 2]] o = (o', Ok (y, e, w)).
Proof.
  intros c NT. assert (H1 : rng_ok (T := R) (fun k => repeat 0 k)) by (intros k; apply repeat_length).
  assert (H2 : sane_kw (rec_kw c)) by (split; intros m Hm; destruct c; cbn in Hm; try discriminate; injection Hm as <-; lia).
  split; [exact H1|]. split; [exact H2|]. split; [exact rsolve_good|].
  assert (Hn : exists o : obj R, new_filter (fun k => repeat 0 k) c (rec_kw c) = Ok o).
  { destruct c; try (eexists; reflexivity). unfold new_filter. cbn [rec_kw kw_other existsb all_params kw_given accepts andb negb orb given kw_n kw_mu kw_w opt].
    cbn. destruct (Reqb _ _) eqn:E; [|eexists; reflexivity]. exfalso. revert E. unfold Reqb. destruct (Req_EM_T _ _) as [E|]; [|discriminate].
    intros _. revert E. unfold Q2R. cbn. lra. }
  destruct Hn as (o & Ho). exists o. pose proof (reach_new 2 (fun k => repeat 0 k) c (rec_kw c) o H1 H2 eq_refl Ho) as Hr.
  assert (Hx : rows_of (T := R) 2 [[1; 0]; [1; 2]]) by (repeat constructor).
  assert (HR : exists o' y e w, run [1; 2] [[1; 0]; [1; 2]] o = (o', Ok (y, e, w))).
  { destruct (match c with KAP => true | _ => false end) eqn:Ec.
    - destruct c; try discriminate. pose proof (reachable_wf 2 o Hr) as Hwf.
      destruct (run_eq 2 o [1; 2] [[1; 0]; [1; 2]] Hwf Hx eq_refl) as (h & E & _); [discriminate|]. rewrite E.
      assert (E1 : snd (adapt 1 [1; 0] o) = Ok tt).
      { apply (C58_AP_never_raises rsolve (fun k => repeat 0 k) (rec_kw KAP) 2 o [] 1 [1; 0] (1 / 2) 2 (1 / 2)); auto using rsolve_complete; lra. }
      assert (E2 : snd (adapt 2 [1; 2] (fst (adapt 1 [1; 0] o))) = Ok tt).
      { apply (C58_AP_never_raises rsolve (fun k => repeat 0 k) (rec_kw KAP) 2 o [OpAdapt 1 [1; 0]] 2 [1; 2] (1 / 2) 2 (1 / 2)); auto using rsolve_complete; try lra.
        repeat constructor. }
      assert (E3 : snd (adapt_all [1; 2] [[1; 0]; [1; 2]] o) = Ok tt).
      { cbn [adapt_all]. unfold bind. destruct (adapt 1 [1; 0] o) as [o1 [[]|]]; [|discriminate]. cbn [fst] in E2.
        destruct (adapt 2 [1; 2] o1) as [o2 [[]|]]; [reflexivity|discriminate]. }
      rewrite E3. do 4 eexists. reflexivity.
    - apply (run_exists rsolve 2); auto; [discriminate|]. intros ex Hs. unfold soft_exn in Hs.
      destruct (new_filter_rate rsolve _ c (rec_kw c) 2 o eq_refl Ho) as (Hmu & _ & Hext).
      destruct c; try discriminate; cbn [init_ext] in Hext.
      all: try (injection Hext as Hext; rewrite <- Hext in Hs; exact Hs).
      match type of Hext with (if ?b then _ else _) = _ => destruct b; [discriminate Hext|] end. injection Hext as Hext. rewrite <- Hext in Hs. destruct Hs as (_ & Hs).
      rewrite Hmu in Hs. revert Hs. cbn. unfold Reqb. destruct (Req_EM_T _ _); [lra|discriminate]. }
  destruct HR as (o' & y & e & w & HR). exists o', y, e, w. split; [exact Ho|exact HR].
Qed.
