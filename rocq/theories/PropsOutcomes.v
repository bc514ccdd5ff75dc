(** C87: every outcome of the detection and preprocessing functions, for all arguments. *)
From Coq Require Import Reals Lra Psatz QArith Permutation Qreals.
From Verif Require Import Py Num Numpy StructProofs RVec RMat Detection PropsDetection PropsESE Preprocess PropsPCA PropsLDA.
Open Scope R_scope.

(** *** learning_entropy: which sensitivities are accepted, and which mean the same (any arithmetic) *)
Section Any.
  Context {T : Type} {NT : Num T}.

  Theorem C87_learning_entropy : forall c (w : list (list T)) m order alpha,
    let le := learning_entropy c w m order in
    ((order < 0)%Z -> le alpha = Err ValueError) /\
    ((0 <= order)%Z ->
       (exists A, le AlphaFalse = Ok (LeMatrix A)) /\
       le (AlphaList []) = le AlphaFalse /\ le (AlphaArray []) = le AlphaFalse /\
       (forall a, neqb a n0 = true -> le (AlphaScalar a) = le AlphaFalse /\ le (AlphaArray [a]) = le AlphaFalse) /\
       (forall a, neqb a n0 = false -> le (AlphaScalar a) = Err TypeError /\ le (AlphaArray [a]) = le (AlphaList [a])) /\
       (forall a l, exists v, le (AlphaList (a :: l)) = Ok (LeSeries v)) /\
       (forall a b l, le (AlphaArray (a :: b :: l)) = Err ValueError)).
  Proof.
    intros c w m order alpha le. unfold le, learning_entropy. destruct (Z.ltb_spec order 0) as [H|H]; (split; [intros H'; try lia|intros H'; try lia]).
    - reflexivity.
    - cbn [not_alpha length Nat.eqb]. split; [eexists; reflexivity|]. split; [reflexivity|]. split; [reflexivity|].
      split; [intros a E; rewrite E; split; reflexivity|]. split; [intros a E; rewrite E; split; reflexivity|].
      split; [intros a l; eexists; reflexivity|]. reflexivity.
  Qed.
End Any.

Section S.
  Variable solve : list rvec -> list rvec -> option (list rvec).
  #[local] Hint Extern 0 (Num R) => exact (RNum solve) : typeclass_instances.

  Lemma repeat_map2 {A B C} (g : A -> B -> C) b : forall u, map2 g u (repeat b (length u)) = map (fun a => g a b) u.
  Proof. induction u as [|a u IH]; [reflexivity|]. cbn. rewrite IH. reflexivity. Qed.
  Lemma bc_one {A B C} (g : A -> B -> C) u b : bc g u [b] = bc g u (repeat b (length u)).
  Proof.
    unfold bc at 2. rewrite repeat_length, Nat.eqb_refl, repeat_map2. unfold bc. destruct u as [|a [|a' u]]; reflexivity.
  Qed.
  Lemma bc_same {A B C} (g : A -> B -> C) u v : length u = length v -> bc g u v = Ok (map2 g u v).
  Proof. intros H. unfold bc. rewrite H, Nat.eqb_refl. reflexivity. Qed.
  Lemma map2_len' {A B C} (g : A -> B -> C) : forall u v, length (map2 g u v) = Nat.min (length u) (length v).
  Proof. induction u as [|a u IH]; intros [|b v]; try reflexivity. cbn. rewrite IH. reflexivity. Qed.
  Lemma sequence_row_max c (A : rmat) : c <> 0%nat -> Forall (fun r => length r = c) A -> exists v, sequence (map row_max A) = Ok v /\ length v = length A.
  Proof.
    intros Hc. induction 1 as [|r A Hr _ (v & E & Hv)]; [exists []; split; reflexivity|]. cbn [map sequence].
    destruct r as [|a r]; [cbn in Hr; congruence|]. cbn [row_max rbind]. rewrite E. cbn [rmap]. eexists. split; [reflexivity|]. cbn. congruence.
  Qed.

  Definition known_function (f : string) : Prop := f = "max"%string \/ f = "sum"%string.

  (** *** ELBND: N rows with c weights each, any number of errors *)
  Theorem C87_ELBND : forall N c w e f, shape N c w -> known_function f ->
    (* as many errors as rows: a value for each of them, unless "max" has nothing to choose from *)
    (length e = N -> (0 < c)%nat \/ f = "sum"%string \/ N = 0%nat -> exists r, ELBND c w e f = Ok r /\ length r = N) /\
    (length e = N -> c = 0%nat -> f = "max"%string -> (0 < N)%nat -> ELBND c w e f = Err ValueError) /\
    (* a single error counts for every row *)
    (forall a, e = [a] -> ELBND c w e f = ELBND c w (repeat a N) f) /\
    (* a single row has no increment: zero for every error *)
    (N = 1%nat -> (0 < c)%nat -> ELBND c w e f = Ok (repeat 0 (length e))) /\
    (length e <> N -> length e <> 1%nat -> N <> 1%nat -> ELBND c w e f = Err ValueError).
  Proof.
    intros N c w e f Hw Hf. destruct (elbnd_dw_ok solve N c w Hw) as (D1 & D2). pose proof D1 as (Hld & HF).
    assert (HE : forall e, ELBND c w e f = rbind (bc (fun row ek => map (fun a => nabs (nmul a ek)) row) (elbnd_dw c w) e)
      (fun elbnd => if String.eqb f "max" then sequence (map row_max elbnd) else Ok (map nsum elbnd))).
    { intros e'. unfold ELBND. destruct Hf as [-> | ->]; reflexivity. }
    set (g := fun (row : rvec) ek => map (fun a => nabs (nmul a ek)) row) in *.
    split; [|split; [|split; [|split]]].
    - intros He Hc. rewrite HE. rewrite bc_same by congruence. cbn [rbind].
      assert (Hlm : length (map2 g (elbnd_dw c w) e) = N) by (rewrite map2_len'; lia).
      destruct (String.eqb_spec f "max") as [E|E].
      + destruct Hc as [Hc|[Hc|Hc]].
        * destruct (sequence_row_max c (map2 g (elbnd_dw c w) e)) as (v & Ev & Hv); [lia| |].
          { clear -HF. revert e. induction HF as [|r A Hr _ IH]; intros [|b e]; try constructor; [unfold g; rewrite map_length; exact Hr|apply IH]. }
          exists v. split; [exact Ev|congruence].
        * subst f. discriminate.
        * assert (HB : map2 g (elbnd_dw c w) e = []) by (destruct (map2 g _ e); [reflexivity|cbn in Hlm; lia]).
          rewrite HB. exists []. split; [reflexivity|symmetry; exact Hc].
      + eexists. split; [reflexivity|]. rewrite map_length. exact Hlm.
    - intros He -> -> HN. rewrite HE. rewrite bc_same by congruence. cbn [rbind String.eqb Ascii.eqb Bool.eqb].
      destruct (elbnd_dw 0 w) as [|r A]; [cbn in Hld; lia|]. destruct e as [|b e]; [cbn in He; lia|].
      apply Forall_inv in HF. destruct r; [|discriminate]. reflexivity.
    - intros a ->. rewrite !HE. rewrite bc_one, Hld. reflexivity.
    - intros HN Hc. rewrite HN in Hld, Hw. rewrite HE. destruct (elbnd_dw c w) as [|r [|r2 A]] eqn:Ed; [cbn in Hld; lia| |cbn in Hld; lia].
      assert (Hr : r = repeat 0 c).
      { destruct w as [|w0 [|w1 w]]; [discriminate| |destruct Hw as (Hw & _); cbn in Hw; lia]. unfold elbnd_dw, diff1 in Ed. cbn in Ed. injection Ed as <-. reflexivity. }
      assert (Hg : forall b, g r b = repeat 0 c).
      { intros b. subst r. clear. unfold g. induction c as [|c IH]; [reflexivity|]. cbn [repeat map]. f_equal; [|exact IH].
        change (Rabs (0 * b) = 0). rewrite Rmult_0_l. apply Rabs_R0. }
      assert (Hb : bc g [r] e = Ok (map (g r) e)) by (unfold bc; destruct e as [|e0 [|e1 e]]; reflexivity).
      rewrite Hb. cbn [rbind]. rewrite map_map.
      destruct c as [|c]; [lia|].
      destruct Hf as [-> | ->]; cbn [String.eqb Ascii.eqb Bool.eqb].
      + assert (HM : forall k, vmax 0 (repeat 0 k) = 0).
        { clear. induction k as [|k IHk]; [reflexivity|]. unfold vmax in *. cbn [repeat fold_left].
          replace (nmax (0 : R) 0) with (0 : R) by (unfold nmax; destruct (nltb (0 : R) 0), (neqb (0 : R) 0); reflexivity). exact IHk. }
        assert (HR : forall b, row_max (g r b) = Ok 0) by (intros b; rewrite Hg; cbn [repeat row_max]; f_equal; apply HM).
        clear -HR. induction e as [|b e IH]; [reflexivity|]. cbn [map sequence]. rewrite HR. cbn [rbind]. rewrite IH. reflexivity.
      + assert (HR : forall b, nsum (g r b) = 0).
        { intros b. rewrite Hg. clear. change (Rsum (repeat 0 (S c)) = 0). induction (S c) as [|k IH]; [reflexivity|]. cbn. rewrite IH. lra. }
        f_equal. clear -HR. induction e as [|b e IH]; [reflexivity|]. cbn [map length repeat]. rewrite HR, IH. reflexivity.
    - intros H1 H2 H3. rewrite HE. unfold bc. destruct (Nat.eqb_spec (length (elbnd_dw c w)) (length e)); [congruence|].
      destruct (elbnd_dw c w) as [|r [|r2 A]], e as [|b [|b2 e]]; cbn in *; try lia; reflexivity.
  Qed.

  (** *** pot: the only failing calls *)
  Section Ese.
  Variable sort : rvec -> rvec.
  Hypothesis sort_ok : sorts sort.
  Definition pot_fails (method : string) (n : nat) (ex : exn) : Prop :=
    (method = "log10log10"%string /\ n = 0%nat /\ ex = ValueError) \/
    (method = "log10log10"%string /\ n = 10%nat /\ ex = OverflowError) \/
    (method = "log10"%string /\ n = 0%nat /\ ex = OverflowError).

  Lemma log10_range n : (0 < n)%nat -> exists p, (10 ^ p <= n < 10 ^ S p)%nat.
  Proof.
    intros H. induction n as [|n IH]; [lia|]. destruct n as [|n]; [exists 0%nat; cbn; lia|].
    destruct IH as (p & Hp); [lia|]. destruct (Nat.eq_dec (S (S n)) (10 ^ S p)) as [E|E].
    - exists (S p). rewrite <- E. split; [lia|]. change (10 ^ S (S p))%nat with (10 * 10 ^ S p)%nat. rewrite <- E. lia.
    - exists p. lia.
  Qed.

  Theorem C87_pot : forall data method,
    (forall ex, pot sort data method = Err ex <-> pot_fails method (length data) ex) /\
    (forall r, pot sort data method = Ok r -> exists k, k_largest k data r /\ (known method -> (1 <= k)%nat)) /\
    (pot sort [] method = Ok [] \/ exists ex, pot_fails method 0 ex).
  Proof.
    intros data method.
    assert (HT : (exists ex, pot sort data method = Err ex /\ pot_fails method (length data) ex) \/
                 (exists r k, pot sort data method = Ok r /\ k_largest k data r /\ (known method -> (1 <= k)%nat) /\ forall ex, ~ pot_fails method (length data) ex)).
    { destruct (in_dec string_dec method ["10%"; "sqrt"; "log10log10"; "log10"; "35%"]%string) as [Hk|Hk].
      - destruct Hk as [<-|[<-|[<-|[<-|[<-|[]]]]]].
        + right. edestruct (C42_k_largest solve sort sort_ok data "10%") as (r & H1 & H2); [left; split; reflexivity|].
          exists r; eexists; split; [exact H1|]. split; [exact H2|]. split; [lia|]. intros ex [(H & _)|[(H & _)|(H & _)]]; discriminate.
        + right. edestruct (C42_k_largest solve sort sort_ok data "sqrt") as (r & H1 & H2); [right; right; left; split; reflexivity|].
          exists r; eexists; split; [exact H1|]. split; [exact H2|]. split; [lia|]. intros ex [(H & _)|[(H & _)|(H & _)]]; discriminate.
        + destruct (Nat.eq_dec (length data) 0) as [E|E].
          { left. exists ValueError. split; [unfold pot, pot_count; rewrite E; reflexivity|left; auto]. }
          destruct (Nat.eq_dec (length data) 10) as [E2|E2].
          { left. exists OverflowError. split; [exact (C42_log10log10_overflow solve sort data E2)|right; left; auto]. }
          right. destruct (Nat.eq_dec (length data) 1) as [E1|E1].
          * exists (slice_to (map Ropp (sort (map Ropp data))) (Z.of_nat 1)), 1%nat.
            split; [unfold pot, pot_count; rewrite E1; reflexivity|]. split; [exact (pot_k_largest sort sort_ok data 1)|].
            split; [lia|]. intros ex [(_ & H & _)|[(_ & H & _)|(H & _)]]; try congruence; discriminate.
          * destruct (C42_log10log10 solve sort sort_ok data) as (r & k & H1 & H2 & H3 & _); [lia|exact E2|].
            exists r, k. split; [exact H1|]. split; [exact H2|]. split; [intros _; exact H3|].
            intros ex [(_ & H & _)|[(_ & H & _)|(H & _)]]; try congruence; discriminate.
        + destruct (Nat.eq_dec (length data) 0) as [E|E].
          { left. exists OverflowError. split; [unfold pot, pot_count; rewrite E; reflexivity|right; right; auto]. }
          right. destruct (log10_range (length data) ltac:(lia)) as (p & Hp).
          edestruct (C42_k_largest solve sort sort_ok data "log10") as (r & H1 & H2); [right; right; right; split; [reflexivity|exists p; split; [exact Hp|reflexivity]]|].
          exists r; eexists; split; [exact H1|]. split; [exact H2|]. split; [lia|]. intros ex [(H & _)|[(H & _)|(_ & H & _)]]; try discriminate; congruence.
        + right. edestruct (C42_k_largest solve sort sort_ok data "35%") as (r & H1 & H2); [right; left; split; reflexivity|].
          exists r; eexists; split; [exact H1|]. split; [exact H2|]. split; [lia|]. intros ex [(H & _)|[(H & _)|(H & _)]]; discriminate.
      - right. exists [], 0%nat. split; [exact (C42_unknown_method solve sort data method Hk)|]. split.
        { split; [reflexivity|]. split; [intros a b H; cbn in H; lia|]. exists data. split; [apply Permutation_refl|]. intros a b []. }
        split; [intros H; contradiction|]. intros ex [(-> & _)|[(-> & _)|(-> & _)]]; apply Hk; cbn; auto. }
    split; [|split].
    - intros ex. destruct HT as [(ex' & H1 & H2)|(r & k & H1 & _ & _ & H2)]; rewrite H1; split; intros H.
      + injection H as <-. exact H2.
      + destruct H2 as [(-> & A & ->)|[(-> & A & ->)|(-> & A & ->)]], H as [(B & C & ->)|[(B & C & ->)|(B & C & ->)]]; try discriminate; try congruence; reflexivity.
      + discriminate.
      + exfalso; exact (H2 ex H).
    - intros r E. destruct HT as [(ex' & H1 & _)|(r' & k & H1 & H2 & H3 & _)]; [congruence|]. exists k. rewrite E in H1. injection H1 as ->. auto.
    - clear HT. assert (Hn : forall k, slice_to (map Ropp (sort (map Ropp []))) k = []).
      { intros k. destruct (sort_ok []) as (H & _). apply Permutation_sym, Permutation_nil in H. cbn [map]. rewrite H. unfold slice_to. cbn. apply firstn_nil. }
      unfold pot. destruct (pot_count (length (@nil R)) method) as [k|ex] eqn:E.
      + left. cbn [rmap]. f_equal. exact (Hn k).
      + right. exists ex. cbn [length] in E. unfold pot_count in E.
        destruct (String.eqb_spec method "10%"); [discriminate|]. destruct (String.eqb_spec method "sqrt"); [discriminate|].
        destruct (String.eqb_spec method "log10log10") as [->|_]; [left; cbn in E; injection E as <-; auto|].
        destruct (String.eqb_spec method "log10") as [->|_]; [right; right; cbn in E; injection E as <-; auto|].
        destruct (String.eqb_spec method "35%"); discriminate.
  Qed.

  (** *** ESE: the only failing calls, for a distribution fit that never fails *)
  Variable fit : rvec -> R -> result (R * R * R).
  Variable cdf : R -> R -> R -> R -> R.
  Definition ese_fails (N c window : nat) (method : string) (ex : exn) : Prop :=
    ((N < window)%nat /\ ex = ValueError) \/
    ((window < N)%nat /\ (0 < c)%nat /\
      (pot_fails method window ex \/ (ex = IndexError /\ (~ known method \/ (window = 0%nat /\ forall e, ~ pot_fails method 0 e))))).

  Theorem C87_ESE : forall N c w window method ex, shape N c w -> (forall p t, exists q, fit p t = Ok q) ->
    (ESE sort fit cdf c w window method = Err ex <-> ese_fails N c window method ex).
  Proof.
    intros N c w window method ex Hw Hfit. destruct (ese_dw_ok solve N c w Hw) as (HD & _). pose proof HD as (Hl & HF).
    assert (Huniq : forall r r' : result rvec, r = r' -> (forall ex', r' = Err ex' <-> ese_fails N c window method ex') -> (r = Err ex <-> ese_fails N c window method ex)) by (intros r r' ->; auto).
    destruct (Nat.ltb_spec N window) as [H|H].
    { rewrite (C43_window_too_large solve sort fit cdf N c w window method Hw H). split.
      - intros E. injection E as <-. left; auto.
      - intros [(_ & ->)|(H1 & _)]; [reflexivity|lia]. }
    destruct (Nat.eq_dec N window) as [E|E].
    { split; [|intros [(H1 & _)|(H1 & _)]; lia]. intros HE. exfalso. unfold Detection.ESE in HE. rewrite Hl, E in HE.
      rewrite Nat.ltb_irrefl, Nat.sub_diag in HE. discriminate. }
    destruct (Nat.eq_dec c 0) as [Ec|Ec].
    { split; [|intros [(H1 & _)|(_ & H1 & _)]; lia]. intros HE. exfalso. unfold Detection.ESE in HE. rewrite Hl in HE.
      destruct (Nat.ltb_spec N window); [lia|]. subst c. cbn [seq map sequence] in HE.
      assert (HS : forall l : list nat, sequence (map (fun _ => Ok ([] : rvec)) l) = Ok (map (fun _ => []) l)).
      { induction l as [|a l IH]; [reflexivity|]. cbn [map sequence rbind]. rewrite IH. reflexivity. }
      rewrite HS in HE. discriminate. }
    (* the first cell *)
    assert (Hfirst : forall ex', (exists data, data = slice (column 0 (ese_dw w)) 0 window /\
        (pot sort data method = Err ex' \/ (pot sort data method = Ok [] /\ ex' = IndexError))) -> ESE sort fit cdf c w window method = Err ex').
    { intros ex' (data & -> & HP). unfold Detection.ESE. rewrite Hl. destruct (Nat.ltb_spec N window); [lia|].
      replace (N - window)%nat with (S (N - window - 1)) by lia. destruct c as [|c']; [lia|]. cbn [seq map sequence].
      unfold ese_cell at 1. rewrite Nat.sub_diag. destruct HP as [HP|(HP & ->)]; rewrite HP; reflexivity. }
    assert (Hlen : length (slice (column 0 (ese_dw w)) 0 window) = window).
    { unfold slice. cbn [skipn]. rewrite firstn_length. unfold column. rewrite map_length. lia. }
    set (data := slice (column 0 (ese_dw w)) 0 window) in *.
    destruct (C87_pot data method) as (P1 & P2 & P3). rewrite Hlen in P1.
    destruct (pot sort data method) as [r|ex'] eqn:EP.
    - (* no failure of pot for this window *)
      assert (Hnf : forall e, ~ pot_fails method window e) by (intros e He; apply P1 in He; discriminate).
      destruct (in_dec string_dec method ["10%"; "sqrt"; "log10log10"; "log10"; "35%"]%string) as [Hk|Hk].
      + destruct (Nat.eq_dec window 0) as [E0|E0].
        * assert (Hr : r = []).
          { destruct (P2 r eq_refl) as (k & (Hk' & _) & _). rewrite Hlen, E0, Nat.min_0_r in Hk'. destruct r; [reflexivity|discriminate]. }
          rewrite (Hfirst IndexError) by (exists data; split; [reflexivity|right; split; [rewrite EP, Hr; reflexivity|reflexivity]]).
          split.
          -- intros HE. injection HE as <-. right. split; [lia|]. split; [lia|]. right. split; [reflexivity|]. right. split; [exact E0|].
             intros e He. apply (Hnf e). rewrite E0. exact He.
          -- intros [(H1 & _)|(_ & _ & [H1|(-> & _)])]; [lia|exfalso; exact (Hnf _ H1)|reflexivity].
        * destruct (C43_total solve sort sort_ok fit cdf N c w window method Hw) as (r' & HR); [lia|exact Hk| |exact Hfit|].
          { intros -> ->. apply (Hnf OverflowError). right; left; auto. }
          rewrite HR. split; [discriminate|]. intros [(H1 & _)|(_ & _ & [H1|(_ & [H1|(H1 & _)])])]; [lia|exfalso; exact (Hnf _ H1)|contradiction|lia].
      + rewrite (C43_unknown_method solve sort fit cdf N c w window method Hw) by (auto; lia). split.
        * intros HE. injection HE as <-. right. split; [lia|]. split; [lia|]. right. split; [reflexivity|]. left. exact Hk.
        * intros [(H1 & _)|(_ & _ & [H1|(-> & _)])]; [lia|exfalso; exact (Hnf _ H1)|reflexivity].
    - assert (Hf : pot_fails method window ex') by (apply P1; reflexivity).
      rewrite (Hfirst ex') by (exists data; split; [reflexivity|left; exact EP]). split.
      + intros HE. injection HE as <-. right. split; [lia|]. split; [lia|]. left. exact Hf.
      + intros [(H1 & _)|(_ & _ & [H1|(_ & [H1|(H1 & H2)])])]; [lia| | |].
        * f_equal. apply P1 in H1. congruence.
        * exfalso. apply H1. destruct Hf as [(-> & _)|[(-> & _)|(-> & _)]]; cbn; auto.
        * exfalso. apply (H2 ex'). rewrite <- H1. exact Hf.
  Qed.
  End Ese.

  (** *** PCA and PCA_components: every outcome *)
  Section Pca.
  Variable eig : rmat -> option (rvec * rmat).
  Variable argsort : rvec -> list nat.
  (** C is the sample covariance matrix of the columns of x *)
  Definition is_covariance (N cols : nat) (x C : rmat) : Prop :=
    shape cols cols C /\ forall i j, (i < cols)%nat -> (j < cols)%nat -> ent C i j = scov N (fun k => ent x k i) (fun k => ent x k j).

  Theorem C87_PCA : forall N cols x n C, shape N cols x -> (2 <= N)%nat -> is_covariance N cols x C ->
    let bad := cols = 1%nat \/ eig C = None in
    ((Z.of_nat cols <= effective_n cols n)%Z -> PCA eig argsort cols x n = Err AssertionError) /\
    ((effective_n cols n < Z.of_nat cols)%Z -> bad -> PCA eig argsort cols x n = Err LinAlgError) /\
    ((effective_n cols n < Z.of_nat cols)%Z -> ~ bad -> exists r, PCA eig argsort cols x n = Ok r) /\
    (bad -> PCA_components eig argsort cols x = Err LinAlgError) /\
    (~ bad -> exists r, PCA_components eig argsort cols x = Ok r).
  Proof.
    intros N cols x n C Hx HN (HC & HE) bad. destruct (C37_covariance solve N cols x Hx HN) as (K1 & K2).
    assert (E : cov cols x = C) by (apply (ent_ext cols cols); [exact K1|exact HC|]; intros i j Hi Hj; rewrite K2, HE by assumption; reflexivity).
    assert (Hbad : bad -> eig_cov eig cols x = Err LinAlgError).
    { unfold bad, eig_cov. intros [-> |H]; [reflexivity|]. rewrite E, H. destruct (cols =? 1)%nat; reflexivity. }
    assert (Hgood : ~ bad -> exists p, eig_cov eig cols x = Ok p).
    { unfold bad, eig_cov. intros H. rewrite E. destruct (Nat.eqb_spec cols 1) as [H1|H1]; [exfalso; auto|].
      destruct (eig C) as [p|] eqn:Ee; [exists p; reflexivity|exfalso; apply H; auto]. }
    unfold PCA, PCA_components. change (features cols n) with (effective_n cols n).
    destruct (Z.leb_spec (Z.of_nat cols) (effective_n cols n)) as [H|H].
    - split; [reflexivity|]. split; [lia|]. split; [lia|]. split.
      + intros Hb. rewrite (Hbad Hb). reflexivity.
      + intros Hb. destruct (Hgood Hb) as ((a & b) & ->). eexists; reflexivity.
    - split; [lia|]. split; [intros _ Hb; rewrite (Hbad Hb); reflexivity|]. split; [intros _ Hb; destruct (Hgood Hb) as ((a & b) & ->); eexists; reflexivity|]. split.
      + intros Hb. rewrite (Hbad Hb). reflexivity.
      + intros Hb. destruct (Hgood Hb) as ((a & b) & ->). eexists; reflexivity.
  Qed.

  (** *** LDA and LDA_discriminants: every outcome; W is the within-class and B the between-class scatter matrix *)
  Context {L : Type}.
  Variable eqb : L -> L -> bool.
  Hypothesis eqb_ok : forall a b, eqb a b = true <-> a = b.
  Variable set_order : list L -> list L.
  Variable inv : rmat -> option rmat.
  Hypothesis set_order_ok : forall labels, enumerates labels (set_order labels).

  Theorem C87_LDA : forall N cols x labels d n W B, shape N cols x ->
    shape cols cols W -> shape cols cols B ->
    (forall i j, (i < cols)%nat -> (j < cols)%nat ->
       ent W i j = within eqb N (fun k => nth k labels d) (fun k => ent x k i) (fun k => ent x k j) /\
       ent B i j = between eqb N (fun k => nth k labels d) (fun k => ent x k i) (fun k => ent x k j)) ->
    let bad := inv W = None \/ (exists si, inv W = Some si /\ eig (mm cols si B) = None) in
    let lda := LDA eig argsort eqb set_order inv cols x labels n in
    let disc := LDA_discriminants eig argsort eqb set_order inv cols x labels in
    ((Z.of_nat cols <= effective_n cols n)%Z -> lda = Err AssertionError) /\
    ((effective_n cols n < Z.of_nat cols)%Z -> length labels <> N -> lda = Err IndexError) /\
    ((effective_n cols n < Z.of_nat cols)%Z -> length labels = N -> bad -> lda = Err LinAlgError) /\
    ((effective_n cols n < Z.of_nat cols)%Z -> length labels = N -> ~ bad -> exists r, lda = Ok r) /\
    (length labels <> N -> disc = Err IndexError) /\
    (length labels = N -> bad -> disc = Err LinAlgError) /\
    (length labels = N -> ~ bad -> exists r, disc = Ok r).
  Proof.
    intros N cols x labels d n W B Hx HW HB HE bad lda disc. pose proof Hx as (Hlx & _).
    assert (Hgood : length labels = N -> (bad -> LDA_base eig eqb set_order inv cols x labels = Err LinAlgError) /\
                                         (~ bad -> exists p, LDA_base eig eqb set_order inv cols x labels = Ok p)).
    { intros Hl. unfold LDA_base. rewrite Hl, Hlx, Nat.eqb_refl. cbn [negb].
      destruct (scatter_within_ok solve eqb eqb_ok N cols x labels d (set_order labels) Hx Hl (set_order_ok labels)) as (S1 & S2).
      destruct (scatter_between_ok solve eqb eqb_ok N cols x labels d (set_order labels) Hx Hl (set_order_ok labels)) as (S3 & S4).
      assert (E1 : scatter_within eqb cols x labels (set_order labels) = W).
      { apply (ent_ext cols cols); [exact S1|exact HW|]. intros i j Hi Hj. rewrite S2 by assumption. symmetry. apply HE; assumption. }
      assert (E2 : scatter_between eqb cols x labels (set_order labels) = B).
      { apply (ent_ext cols cols); [exact S3|exact HB|]. intros i j Hi Hj. rewrite S4 by assumption. symmetry. apply HE; assumption. }
      rewrite E1, E2. unfold bad. split.
      - intros [H|(si & H1 & H2)]; [rewrite H; reflexivity|]. rewrite H1, H2. reflexivity.
      - intros H. destruct (inv W) as [si|] eqn:Ei; [|exfalso; auto]. destruct (eig (mm cols si B)) as [p|] eqn:Ee; [exists p; reflexivity|].
        exfalso. apply H. right. exists si. auto. }
    assert (Hbadl : length labels <> N -> LDA_base eig eqb set_order inv cols x labels = Err IndexError).
    { intros Hl. unfold LDA_base. rewrite Hlx. destruct (Nat.eqb_spec (length labels) N); [contradiction|reflexivity]. }
    unfold lda, disc, LDA, LDA_discriminants. change (features cols n) with (effective_n cols n).
    assert (HD1 : length labels <> N -> rmap (fun '(values, vectors) => pick n0 values (descending argsort values)) (LDA_base eig eqb set_order inv cols x labels) = Err IndexError)
      by (intros Hl; rewrite (Hbadl Hl); reflexivity).
    assert (HD2 : length labels = N -> bad -> rmap (fun '(values, vectors) => pick n0 values (descending argsort values)) (LDA_base eig eqb set_order inv cols x labels) = Err LinAlgError)
      by (intros Hl Hb; rewrite (proj1 (Hgood Hl) Hb); reflexivity).
    assert (HD3 : length labels = N -> ~ bad -> exists r, rmap (fun '(values, vectors) => pick n0 values (descending argsort values)) (LDA_base eig eqb set_order inv cols x labels) = Ok r)
      by (intros Hl Hb; destruct (proj2 (Hgood Hl) Hb) as ((a & b) & ->); eexists; reflexivity).
    destruct (Z.leb_spec (Z.of_nat cols) (effective_n cols n)) as [H|H].
    - split; [reflexivity|]. split; [lia|]. split; [lia|]. split; [lia|]. split; [exact HD1|]. split; [exact HD2|exact HD3].
    - split; [lia|]. split; [intros _ Hl; rewrite (Hbadl Hl); reflexivity|].
      split; [intros _ Hl Hb; rewrite (proj1 (Hgood Hl) Hb); reflexivity|].
      split; [intros _ Hl Hb; destruct (proj2 (Hgood Hl) Hb) as ((a & b) & ->); eexists; reflexivity|].
      split; [exact HD1|]. split; [exact HD2|exact HD3].
  Qed.
  End Pca.
End S.

(** ** The hypotheses are met *)
Example C87_hypotheses :
  shape 2 2 [[0; 1]; [2; 1]] /\ is_covariance 2 2 [[0; 1]; [2; 1]] [[2; 0]; [0; 0]] /\ known_function "max" /\
  pot_fails "log10" 0 OverflowError /\ ~ (exists ex, pot_fails "sqrt" 0 ex) /\
  ese_fails 5 2 0 "sqrt" IndexError /\ ~ (exists ex, ese_fails 5 2 3 "sqrt" ex) /\
  (let W := [[2; 0]; [0; 2]] in let B := [[16; 0]; [0; 0]] in
   shape 4 2 x38 /\ shape 2 2 W /\ shape 2 2 B /\
   forall i j, (i < 2)%nat -> (j < 2)%nat ->
     ent W i j = within Bool.eqb 4 (fun k => nth k lab38 true) (fun k => ent x38 k i) (fun k => ent x38 k j) /\
     ent B i j = between Bool.eqb 4 (fun k => nth k lab38 true) (fun k => ent x38 k i) (fun k => ent x38 k j)).
Proof.
  assert (Hs : forall n, ~ (exists ex, pot_fails "sqrt" n ex)).
  { intros n (ex & [(H & _)|[(H & _)|(H & _)]]); discriminate. }
  split; [split; [reflexivity|repeat constructor]|].
  split. { split; [split; [reflexivity|repeat constructor]|]. intros i j Hi Hj.
    destruct i as [|[|i]]; [| |lia]; (destruct j as [|[|j]]; [| |lia]); unfold scov, smean, ent; cbn [sumn nth INR]; field. }
  split; [left; reflexivity|]. split; [right; right; auto|]. split; [apply Hs|].
  split. { right. split; [lia|]. split; [lia|]. right. split; [reflexivity|]. right. split; [reflexivity|]. intros e He. apply (Hs 0%nat). exists e. exact He. }
  split. { intros (ex & [(H & _)|(_ & _ & [H|(_ & [H|(H & _)])])]); [lia|apply (Hs 3%nat); exists ex; exact H|apply H; cbn; auto|lia]. }
  split; [split; [reflexivity|repeat constructor]|]. split; [split; [reflexivity|repeat constructor]|]. split; [split; [reflexivity|repeat constructor]|].
  intros i j Hi Hj. destruct i as [|[|i]]; [| |lia]; (destruct j as [|[|j]]; [| |lia]);
    unfold within, between, cmean, smean, csize, lab38, ent, x38; cbn [sumn nth Bool.eqb ind INR]; split; field.
Qed.
