(** C99: what the novelty detectors say about a filter that broke down (one nan among its data).  Any arithmetic with an
    absorbing number; the float instance is in PropsBlindF.v. *)
From Coq Require Import QArith.
From Verif Require Import Py Num Numpy Filters Registry Spec StructProofs RunProofs Reach Steps Detection PropsNan PropsLatency.
Open Scope nat_scope.

Section Spec.
  Context {T : Type} {NT : Num T}.
  (** a number that compares as nan does (never smaller, never larger, the only one that is not equal to itself), and that np.abs, a division
      and np.sum pass on *)
  Record unordered (bad : T) : Prop := {
    un_lt_l : forall a, nltb bad a = false; un_lt_r : forall a, nltb a bad = false; un_eq : neqb bad bad = false; un_only : forall a, neqb a a = false -> a = bad;
    un_abs : nabs bad = bad; un_div : forall a, ndiv bad a = bad; un_sum : forall l, In bad l -> nsum l = bad }.
  (** facts about small numbers: 0 + 0 = 0, 0 / i = 0, 1 * 1 = 1 *)
  Record counting : Prop := {
    cnt_add : nadd n0 n0 = (n0 : T); cnt_mul : nmul n1 n1 = (n1 : T);
    cnt_div : forall i, (0 < i)%nat -> (Z.of_nat i < 2 ^ 53)%Z -> ndiv n0 (nofnat i) = (n0 : T) }.
End Spec.

Section Props.
  Context {T : Type} {NT : Num T}.
  Notation vec := (list T).
  Notation mat := (list (list T)).
  Notation obj := (obj T).
  Variable bad : T.
  Hypothesis HB : absorbing bad.
  Hypothesis HU : unordered bad.

  (** *** lists *)
  Lemma nth_map2 {A B C} (f : A -> B -> C) : forall u v i a b c, i < length u -> i < length v -> nth i (map2 f u v) c = f (nth i u a) (nth i v b).
  Proof. induction u as [|x u IH]; intros [|z v] i a b c Hu Hv; cbn [length] in *; try lia. destruct i as [|i]; [reflexivity|]. cbn [map2 nth]. apply IH; lia. Qed.
  Lemma nth_tl {A} (l : list A) i d : nth i (tl l) d = nth (S i) l d.
  Proof. destruct l; [destruct i; reflexivity|reflexivity]. Qed.
  Lemma tl_len {A} (l : list A) : length (tl l) = length l - 1.
  Proof. destruct l; cbn; lia. Qed.
  Lemma nth_map_in {A B} (f : A -> B) l i a b : i < length l -> nth i (map f l) b = f (nth i l a).
  Proof. intros H. rewrite nth_indep with (d' := f a) by (rewrite map_length; exact H). apply map_nth. Qed.
  Lemma map2_rep (f : T -> T -> T) : (forall a, f bad a = bad) -> forall n v, length v = n -> map2 f (repeat bad n) v = repeat bad n.
  Proof. intros Hf. induction n as [|n IH]; intros [|a v] Hl; try discriminate; [reflexivity|]. cbn [repeat map2]. rewrite Hf. f_equal. apply IH. cbn in Hl; lia. Qed.
  Lemma map_rep (f : T -> T) n : f bad = bad -> map f (repeat bad n) = repeat bad n.
  Proof. intros Hf. induction n as [|n IH]; [reflexivity|]. cbn [repeat map]. rewrite Hf, IH. reflexivity. Qed.
  Lemma nth_rep n i d : i < n -> nth i (repeat bad n) d = bad.
  Proof. intros H. apply nth_error_nth. apply nth_error_repeat. exact H. Qed.

  (** *** bad rows stay bad when differences are taken *)
  Definition bad_from (n k : nat) (A : mat) : Prop := rows_of n A /\ forall j, k < j < length A -> nth j A [] = repeat bad n.
  Lemma rows_nth n (A : mat) j : rows_of n A -> j < length A -> length (nth j A []) = n.
  Proof. intros H Hj. apply (proj1 (Forall_forall _ _) H), nth_In, Hj. Qed.
  Lemma rows_intro n (A : mat) : (forall j, j < length A -> length (nth j A []) = n) -> rows_of n A.
  Proof. intros H. apply Forall_forall. intros r Hr. apply (In_nth _ _ []) in Hr as (j & Hj & <-). apply H, Hj. Qed.
  Lemma diff1_nth (A : mat) j : S j < length A -> nth j (diff1 A) [] = map2 nsub (nth (S j) A []) (nth j A []).
  Proof. intros H. unfold diff1. rewrite (nth_map2 _ _ _ _ [] []) by (rewrite ?tl_len; lia). rewrite nth_tl. reflexivity. Qed.
  Lemma diff1_rows n (A : mat) : rows_of n A -> rows_of n (diff1 A).
  Proof.
    intros H. apply rows_intro. intros j Hj. rewrite diff1_len in Hj. rewrite diff1_nth by lia. apply map2_length_eq; apply rows_nth; auto; lia.
  Qed.
  Lemma diffn_rows n o (A : mat) : rows_of n A -> rows_of n (diffn o A).
  Proof. intros H. induction o as [|o IH]; [exact H|]. apply diff1_rows, IH. Qed.
  Lemma diffn_bad n k o (A : mat) : bad_from n k A -> forall j, k < j + o -> j + o < length A -> nth j (diffn o A) [] = repeat bad n.
  Proof.
    intros (HR & H). induction o as [|o IH]; intros j H1 H2; [apply H; lia|]. cbn [diffn]. rewrite diff1_nth by (rewrite diffn_len; lia).
    rewrite IH by lia. apply map2_rep; [apply (abs_sub_l _ HB)|]. apply rows_nth; [apply diffn_rows, HR|]. rewrite diffn_len. lia.
  Qed.
  Lemma nth_first' {A} (l : list A) k j d : j < k -> nth j (firstn k l) d = nth j l d.
  Proof. revert l j; induction k as [|k IH]; intros [|a l] j Hj; try lia; [destruct j; reflexivity|]. destruct j; [reflexivity|]. cbn. apply IH. lia. Qed.
  Lemma le_dw_bad n k o (w : mat) : bad_from n k w -> bad_from n k (le_dw o w).
  Proof.
    intros H. pose proof H as (HR & Hb). split.
    - unfold le_dw. apply Forall_app. split.
      + apply Forall_forall. intros r Hr. apply (proj1 (Forall_forall _ _) HR). rewrite <- (firstn_skipn o w). apply in_or_app. left. exact Hr.
      + unfold mabs. apply Forall_map. eapply Forall_impl; [|apply (diffn_rows n o w HR)]. intros r Hr. cbn beta in *. rewrite map_length. exact Hr.
    - intros j Hj. rewrite le_dw_len in Hj. unfold le_dw. destruct (Nat.lt_ge_cases j o) as [Ho|Ho].
      + rewrite app_nth1 by (rewrite firstn_length; lia). rewrite nth_first' by exact Ho. apply Hb. lia.
      + rewrite app_nth2 by (rewrite firstn_length; lia). rewrite firstn_length, Nat.min_l by lia. unfold mabs.
        rewrite (nth_map_in _ _ _ [] []) by (rewrite diffn_len; lia). rewrite (diffn_bad n k) by (auto; lia). apply map_rep, (un_abs _ HU).
  Qed.

  (** *** counting *)
  Lemma count_none (f : T -> T -> bool) : (forall a, f a bad = false) -> forall n v, length v = n -> count_true (map2 f v (repeat bad n)) = 0.
  Proof. intros Hf. induction n as [|n IH]; intros [|a v] Hl; try discriminate; [reflexivity|]. cbn [repeat map2 count_true]. rewrite Hf. apply IH. cbn in Hl; lia. Qed.
  Lemma awd_len c m (dw : mat) k : length (le_awd c m dw k) = c.
  Proof.
    unfold le_awd. destruct (k <? m); [apply repeat_length|]. unfold mean0, transpose. rewrite !map_length, seq_length. reflexivity.
  Qed.
  Lemma swd_len c m (dw : mat) k : length (le_swd c m dw k) = c.
  Proof.
    unfold le_swd. destruct (k <? m); [apply repeat_length|]. unfold std0, transpose. rewrite !map_length, seq_length. reflexivity.
  Qed.
  Lemma multiscale_nth c m (dw : mat) al j : j < length dw -> nth j (le_multiscale c m dw al) n0 =
    if j <? m then n0 else ndiv (fold_left (fun s alpha => nadd s (nofnat (count_true (map2 (fun a d => nltb (nmul a alpha) d) (le_awd c m dw j) (nth j dw []))))) al n0)
      (nofnat (c * length al)).
  Proof. intros H. unfold le_multiscale. rewrite (nth_map_in _ _ _ 0 n0) by (rewrite seq_length; exact H). rewrite seq_nth by exact H. reflexivity. Qed.

  (** the weight history of a run with a bad sample *)
  Lemma run_bad n (o o' : obj) d x y e w k : solver_shapes -> reachable n o -> is_base o = false -> 0 < n ->
    rows_of n x -> run d x o = (o', Ok (y, e, w)) -> k < length x -> nth k d n0 = bad \/ In bad (nth k x []) ->
    length w = length x /\ length e = length x /\ bad_from n k w /\ forall j, k <= j < length x -> nth j e n0 = bad.
  Proof.
    intros HS Hr Hbase Hn Hx HR Hk Hp. destruct (C60_run_poisoned bad HB n o o' d x y e w k HS Hr Hbase Hn Hx HR Hk Hp) as (H1 & H2 & _).
    assert (Hld : length d = length x) by (destruct (Nat.eq_dec (length d) (length x)) as [H|H]; [exact H|rewrite run_bad_length in HR by exact H; discriminate]).
    pose proof (reachable_wf n o Hr) as Hwf.
    destruct (run_eq n o d x Hwf Hx Hld) as (h & HE & _); [destruct x; [cbn in Hk; lia|discriminate]|]. rewrite HE in HR.
    apply pair_equal_spec in HR as (_ & HR). destruct (snd (adapt_all d x o)) as [[]|]; [|discriminate]. cbn [rmap] in HR. injection HR as _ <- <-.
    assert (HL : length (wtrace d x o) = length x /\ rows_of n (wtrace d x o)).
    { clear - Hwf Hx Hld. revert x o Hwf Hx Hld. induction d as [|d0 d IH]; intros [|x0 x] o Hwf Hx Hld; try discriminate; [split; [reflexivity|constructor]|].
      cbn [wtrace length] in *. pose proof (Forall_inv Hx) as Hx0. cbn beta in Hx0. destruct (adapt_ok n o d0 x0 Hwf Hx0) as (o1 & r1 & E1 & Hwf1 & _).
      rewrite E1. cbn [fst]. destruct (IH x o1 Hwf1 (Forall_inv_tail Hx)) as (A & B); [lia|]. split; [lia|]. constructor; [|exact B]. apply Hwf. }
    destruct HL as (HL & HRw). split; [exact HL|]. split; [rewrite (map2_length_eq _ _ _ (length x)); [reflexivity|exact Hld|apply ytrace_length; exact Hld]|]. split.
    - split; [exact HRw|]. intros j Hj. rewrite HL in Hj. apply H2. exact Hj.
    - intros j Hj. destruct (Nat.eq_dec j k) as [->|]; [exact H1|]. apply H2. lia.
  Qed.

  Section Run.
    Variables (n : nat) (o o' : obj) (d : vec) (x : mat) (y e : vec) (w : mat) (k : nat).
    Hypotheses (HS : solver_shapes) (Hr : reachable n o) (Hbase : is_base o = false) (Hn : 0 < n) (Hx : rows_of n x)
      (HR : run d x o = (o', Ok (y, e, w))) (Hk : k < length x) (Hp : nth k d n0 = bad \/ In bad (nth k x [])).

    (** Learning entropy, multiscale: 0 for every later sample *)
    Theorem C99_multiscale : counting (T := T) -> forall m order alphas, (0 <= order)%Z -> alphas <> [] -> (Z.of_nat (n * length alphas) < 2 ^ 53)%Z ->
      exists le, learning_entropy n w m order (AlphaList alphas) = Ok (LeSeries le) /\ length le = length x /\
        forall j, k < j < length x -> nth j le n0 = n0.
    Proof.
      intros HC m order alphas Ho Ha Hs. destruct (run_bad n o o' d x y e w k HS Hr Hbase Hn Hx HR Hk Hp) as (HL & _ & Hb & _).
      unfold learning_entropy, not_alpha. destruct (Z.ltb_spec order 0); [lia|]. destruct (Nat.eqb_spec (length alphas) 0) as [E|E]; [destruct alphas; [congruence|discriminate]|].
      eexists. split; [reflexivity|]. pose proof (le_dw_bad n k (Z.to_nat order) w Hb) as (_ & HD).
      assert (HLd : length (le_dw (Z.to_nat order) w) = length x) by (rewrite le_dw_len; exact HL).
      split; [unfold le_multiscale; rewrite map_length, seq_length; exact HLd|].
      intros j Hj. rewrite multiscale_nth by lia. destruct (Nat.ltb_spec j m); [reflexivity|]. rewrite HD by lia.
      assert (HF : forall l, fold_left (fun s alpha => nadd s (nofnat (count_true (map2 (fun a d => nltb (nmul a alpha) d) (le_awd n m (le_dw (Z.to_nat order) w) j) (repeat bad n))))) l n0 = (n0 : T)).
      { intros l. induction l as [|a l IH]; [reflexivity|]. cbn [fold_left]. rewrite count_none by (intros; apply (un_lt_r _ HU) || apply awd_len).
        etransitivity; [|exact IH]. f_equal. apply (cnt_add HC). }
      rewrite HF. apply (cnt_div HC); [|exact Hs]. destruct n; [lia|]. destruct (length alphas); lia.
    Qed.

    (** Learning entropy, direct: bad for every later sample outside the initial zone *)
    Theorem C99_direct : forall m order, (0 <= order)%Z ->
      exists A, learning_entropy n w m order AlphaFalse = Ok (LeMatrix A) /\ length A = length x /\
        forall j, k < j < length x -> nth j A [] = if j <? m then repeat n0 n else repeat bad n.
    Proof.
      intros m order Ho. destruct (run_bad n o o' d x y e w k HS Hr Hbase Hn Hx HR Hk Hp) as (HL & _ & Hb & _).
      unfold learning_entropy, not_alpha. destruct (Z.ltb_spec order 0); [lia|]. eexists. split; [reflexivity|].
      pose proof (le_dw_bad n k (Z.to_nat order) w Hb) as (_ & HD).
      assert (HLd : length (le_dw (Z.to_nat order) w) = length x) by (rewrite le_dw_len; exact HL).
      split; [unfold le_direct; rewrite map_length, seq_length; exact HLd|].
      intros j Hj. unfold le_direct. cbv zeta. rewrite (nth_map_in _ _ _ 0 []) by (rewrite seq_length; lia). rewrite seq_nth by lia. cbn [plus].
      destruct (Nat.ltb_spec j m); [reflexivity|]. rewrite HD by lia.
      rewrite (map2_rep nsub) by (apply (abs_sub_l _ HB) || apply awd_len). apply map2_rep; [intros; apply (un_div _ HU)|apply swd_len].
    Qed.

    (** ELBND, both output functions: bad from the bad sample on *)
    Lemma vmax_bad l : forall a, a = bad \/ In bad l -> vmax a l = bad.
    Proof.
      unfold vmax. induction l as [|b l IH]; intros a [H|H]; cbn [fold_left]; [exact H|destruct H| |].
      - apply IH. left. unfold nmax. rewrite H, (un_lt_l _ HU). destruct (neqb b b) eqn:Eb; [reflexivity|]. apply (un_only _ HU), Eb.
      - destruct H as [H|H].
        + apply IH. left. unfold nmax. rewrite H, (un_lt_r _ HU), (un_eq _ HU). reflexivity.
        + apply IH. right. exact H.
    Qed.
    Lemma elbnd_dw_rows c (A : mat) : rows_of c A -> rows_of c (elbnd_dw c A).
    Proof.
      intros H. unfold elbnd_dw. apply Forall_app. split.
      - unfold mabs. apply Forall_map. eapply Forall_impl; [|apply (diff1_rows c A H)]. intros r Hr'. cbn beta in *. rewrite map_length. exact Hr'.
      - destruct A; constructor; [apply repeat_length|constructor].
    Qed.
    Lemma sequence_nth {A} (l : list (result A)) r j dl dr : sequence l = Ok r -> j < length l -> nth j l dl = Ok (nth j r dr).
    Proof.
      revert r j. induction l as [|a l IH]; intros r j H Hj; cbn [length] in Hj; [lia|]. cbn [sequence] in H. destruct a as [a|]; [|discriminate]. cbn [rbind] in H.
      destruct (sequence l) as [r'|] eqn:E; [|discriminate]. cbn [rmap] in H. injection H as <-. destruct j as [|j]; [reflexivity|]. cbn [nth]. apply IH; [reflexivity|lia].
    Qed.
    Theorem C99_ELBND : forall f, f = "max"%string \/ f = "sum"%string ->
      exists r, ELBND n w e f = Ok r /\ length r = length x /\ forall j, k <= j < length x -> nth j r n0 = bad.
    Proof.
      intros f Hf. destruct (run_bad n o o' d x y e w k HS Hr Hbase Hn Hx HR Hk Hp) as (HL & HLe & Hb & He).
      pose proof (elbnd_dw_rows n w (proj1 Hb)) as HRw. pose proof (elbnd_dw_len n w) as HLd.
      set (g := fun (row : vec) (ek : T) => map (fun a => nabs (nmul a ek)) row).
      assert (HB1 : bc g (elbnd_dw n w) e = Ok (map2 g (elbnd_dw n w) e)).
      { unfold bc. rewrite HLd, HL, HLe, Nat.eqb_refl. reflexivity. }
      assert (HLm : length (map2 g (elbnd_dw n w) e) = length x) by (apply map2_length_eq; congruence).
      assert (Hrow : forall j, j < length x -> length (nth j (map2 g (elbnd_dw n w) e) []) = n).
      { intros j Hj. rewrite (nth_map2 _ _ _ _ [] n0) by congruence. unfold g. rewrite map_length. apply rows_nth; [exact HRw|congruence]. }
      assert (HG : forall j, k <= j < length x -> nth j (map2 g (elbnd_dw n w) e) [] = repeat bad n).
      { intros j Hj. rewrite (nth_map2 _ _ _ _ [] n0) by (rewrite ?HLd; lia). rewrite He by exact Hj. unfold g.
        assert (Hl : length (nth j (elbnd_dw n w) []) = n) by (apply rows_nth; [exact HRw|rewrite HLd; lia]). revert Hl. generalize (nth j (elbnd_dw n w) []). clear - HB HU.
        intros v <-. induction v as [|a v IH]; [reflexivity|]. cbn [map length repeat]. rewrite (abs_mul_r _ HB), (un_abs _ HU), IH. reflexivity. }
      unfold ELBND. assert (Hf' : negb (String.eqb f "max" || String.eqb f "sum") = false) by (destruct Hf as [-> | ->]; reflexivity). rewrite Hf'.
      change (bc _ (elbnd_dw n w) e) with (bc g (elbnd_dw n w) e). rewrite HB1. cbn [rbind]. destruct (String.eqb f "max").
      - assert (HQ : exists r, sequence (map row_max (map2 g (elbnd_dw n w) e)) = Ok r /\ length r = length x).
        { revert Hrow HLm. generalize (map2 g (elbnd_dw n w) e) as M. generalize (length x) as N. clear - Hn. intros N M H <-.
          induction M as [|r M IH]; [exists []; split; reflexivity|]. destruct IH as (v & Ev & Lv); [intros j Hj; apply (H (S j)); cbn; lia|].
          pose proof (H 0 ltac:(cbn; lia)) as H0. cbn [nth] in H0. destruct r as [|a r]; [cbn in H0; lia|]. cbn [map sequence row_max rbind]. rewrite Ev. cbn [rmap].
          eexists. split; [reflexivity|]. cbn [length]. congruence. }
        destruct HQ as (r & Er & Lr). exists r. split; [exact Er|]. split; [exact Lr|]. intros j Hj.
        pose proof (sequence_nth _ r j (Ok n0) n0 Er ltac:(rewrite map_length; lia)) as E. rewrite (nth_map_in _ _ _ [] _) in E by lia. rewrite HG in E by exact Hj.
        destruct n as [|n']; [lia|]. cbn [repeat row_max] in E. rewrite vmax_bad in E by (left; reflexivity). injection E as <-. reflexivity.
      - eexists. split; [reflexivity|]. split; [rewrite map_length; exact HLm|]. intros j Hj. rewrite (nth_map_in _ _ _ [] _) by lia. rewrite HG by exact Hj.
        apply (un_sum _ HU). destruct n; [lia|]. left. reflexivity.
    Qed.

    (** extreme seeking entropy: the value of a sample at which no weight did anything unusual *)
    Theorem C99_ESE : counting (T := T) -> forall sort fit cdf window method r, ESE sort fit cdf n w window method = Ok r ->
      length r = length x /\ forall j, k < j < length x -> nth j r n0 = if j <? window then n0 else nopp (nlog10 n1).
    Proof.
      intros HC sort fit cdf window method r H. destruct (run_bad n o o' d x y e w k HS Hr Hbase Hn Hx HR Hk Hp) as (HL & _ & Hb & _).
      pose proof (le_dw_bad n k 1 w Hb) as (_ & HD). assert (HLd : length (ese_dw w) = length x) by (change (ese_dw w) with (le_dw 1 w); rewrite le_dw_len; exact HL).
      change (le_dw 1 w) with (ese_dw w) in HD. unfold ESE in H. cbv zeta in H. rewrite HLd in H. destruct (Nat.ltb_spec (length x) window) as [Hw|Hw]; [discriminate|].
      set (rows := map _ (seq window (length x - window))) in H. destruct (sequence rows) as [h|] eqn:Es; [|discriminate]. cbn [rmap] in H. injection H as <-.
      pose proof (sequence_len _ _ Es) as Lh. unfold rows in Lh. rewrite map_length, seq_length in Lh.
      assert (Lz : length (zeros (NT := NT) window) = window) by apply repeat_length.
      split; [rewrite app_length, map_length, Lh, Lz; lia|]. intros j Hj. destruct (Nat.ltb_spec j window) as [Hjw|Hjw].
      - rewrite app_nth1 by lia. unfold zeros. apply nth_error_nth. apply nth_error_repeat. exact Hjw.
      - rewrite app_nth2 by lia. rewrite Lz. rewrite (nth_map_in _ _ _ [] _) by lia.
        pose proof (sequence_nth rows h (j - window) (Ok []) [] Es ltac:(unfold rows; rewrite map_length, seq_length; lia)) as E.
        unfold rows in E. rewrite (nth_map_in _ _ _ 0 _) in E by (rewrite seq_length; lia). rewrite seq_nth in E by lia. replace (window + (j - window)) with j in E by lia.
        f_equal. f_equal. generalize dependent (nth (j - window) h []). intros row E.
        assert (HR1 : Forall (fun a => a = n1) row).
        { assert (Hcell : forall jj a, In jj (seq 0 n) -> ese_cell sort fit cdf (column jj (ese_dw w)) window j method = Ok a -> a = n1).
          { intros jj a Hjj%in_seq Hc. unfold ese_cell in Hc.
            assert (Hv : nth j (column jj (ese_dw w)) n0 = bad).
            { unfold column. rewrite (nth_map_in _ _ _ [] _) by lia. rewrite HD by lia. apply nth_rep. lia. }
            cbv zeta in Hc. rewrite Hv in Hc. destruct (pot sort _ method) as [p|]; [|discriminate]. cbn [rbind] in Hc. destruct (rev p) as [|last q]; [discriminate|].
            rewrite (un_lt_r _ HU) in Hc. injection Hc as <-. reflexivity. }
          revert row E Hcell. generalize (seq 0 n) as l. clear. induction l as [|jj l IH]; intros row E Hc; cbn [map sequence] in E; [injection E as <-; constructor|].
          destruct (ese_cell sort fit cdf (column jj (ese_dw w)) window j method) as [a|] eqn:Ea; [|discriminate]. cbn [rbind] in E.
          destruct (sequence (map _ l)) as [v|] eqn:Ev; [|discriminate]. cbn [rmap] in E. injection E as <-. constructor.
          - apply (Hc jj); [left; reflexivity|exact Ea].
          - apply IH; [exact eq_refl || exact Ev|]. intros j1 a1 H1. apply Hc. right. exact H1. }
        clear - HR1 HC. induction HR1 as [|a row -> _ IH]; [reflexivity|]. cbn [fold_left]. rewrite (cnt_mul HC). exact IH.
    Qed.

    (** so an alarm that compares a detector with a threshold that 0 does not exceed stays silent at every later sample *)
    Theorem C99_no_alarm : counting (T := T) -> forall thr, nltb thr n0 = false ->
      (forall m order alphas le, alphas <> [] -> (Z.of_nat (n * length alphas) < 2 ^ 53)%Z -> learning_entropy n w m order (AlphaList alphas) = Ok (LeSeries le) ->
         forall j, k < j < length x -> nltb thr (nth j le n0) = false) /\
      (forall m order A i, learning_entropy n w m order AlphaFalse = Ok (LeMatrix A) ->
         forall j, k < j < length x -> i < n -> nltb thr (nth i (nth j A []) n0) = false) /\
      (forall f r, ELBND n w e f = Ok r -> forall j, k <= j < length x -> nltb thr (nth j r n0) = false) /\
      (nltb thr (nopp (nlog10 n1)) = false -> forall sort fit cdf window method r, ESE sort fit cdf n w window method = Ok r ->
         forall j, k < j < length x -> nltb thr (nth j r n0) = false).
    Proof.
      intros HC thr Ht. split; [|split; [|split]].
      - intros m order al le Ha Hs H j Hj. assert (Ho : (0 <= order)%Z) by (unfold learning_entropy in H; destruct (Z.ltb_spec order 0); [discriminate|lia]).
        destruct (C99_multiscale HC m order al Ho Ha Hs) as (le' & E & _ & HN). rewrite H in E. injection E as <-. rewrite HN by exact Hj. exact Ht.
      - intros m order A i H j Hj Hi. assert (Ho : (0 <= order)%Z) by (unfold learning_entropy in H; destruct (Z.ltb_spec order 0); [discriminate|lia]).
        destruct (C99_direct m order Ho) as (A' & E & _ & HN). rewrite H in E. injection E as <-. rewrite HN by exact Hj. destruct (j <? m).
        + rewrite (nth_error_nth (repeat n0 n) i n0 (x := n0)) by (apply nth_error_repeat; exact Hi). exact Ht.
        + rewrite nth_rep by exact Hi. apply (un_lt_r _ HU).
      - intros f r H j Hj. assert (Hf : f = "max"%string \/ f = "sum"%string).
        { unfold ELBND in H. destruct (String.eqb_spec f "max"); [auto|]. destruct (String.eqb_spec f "sum"); [auto|discriminate]. }
        destruct (C99_ELBND f Hf) as (r' & E & _ & HN). rewrite H in E. injection E as <-. rewrite HN by exact Hj. apply (un_lt_r _ HU).
      - intros H1 sort fit cdf window method r H j Hj. destruct (C99_ESE HC sort fit cdf window method r H) as (_ & HN). rewrite HN by exact Hj. destruct (j <? window); assumption.
    Qed.
  End Run.
End Props.
