(** Lemmas behind the structural properties (any arithmetic). *)
From Coq Require Import QArith.
From Verif Require Import Py Num Numpy Filters Registry Spec.
Open Scope nat_scope.

(** ** Lists *)
Lemma map2_length {A B C} (f : A -> B -> C) u v :
  length (map2 f u v) = Nat.min (length u) (length v).
Proof. revert v; induction u as [|a u IH]; intros [|b v]; simpl; auto. Qed.

Lemma map2_length_eq {A B C} (f : A -> B -> C) u v n :
  length u = n -> length v = n -> length (map2 f u v) = n.
Proof. intros; rewrite map2_length; lia. Qed.

Lemma set_nth_length {A} k (v : A) l : length (set_nth k v l) = length l.
Proof. revert k; induction l as [|a l IH]; intros [|k]; simpl; auto. Qed.

Lemma set_nth_Forall {A} (P : A -> Prop) k v l : Forall P l -> P v -> Forall P (set_nth k v l).
Proof.
  revert k; induction l as [|a l IH]; intros [|k] Hl Hv; simpl; auto;
    inversion Hl; subst; constructor; auto.
Qed.

Lemma nth_set_nth {A} (dflt v : A) k j l : k < length l ->
  nth j (set_nth k v l) dflt = if j =? k then v else nth j l dflt.
Proof.
  revert k j; induction l as [|a l IH]; intros [|k] [|j] Hk; simpl in *; try lia; auto.
  rewrite IH by lia; reflexivity.
Qed.

Lemma rect_Forall {T} c (A : list (list T)) : rect c A = true <-> Forall (fun r => length r = c) A.
Proof.
  unfold rect; rewrite forallb_forall, Forall_forall; split; intros H r Hr.
  - apply Nat.eqb_eq; auto.
  - apply Nat.eqb_eq; auto.
Qed.

Lemma bc_eq {A B C} (f : A -> B -> C) u v : length u = length v -> bc f u v = Ok (map2 f u v).
Proof. unfold bc; intros ->; rewrite Nat.eqb_refl; reflexivity. Qed.

Section S.
  Context {T : Type} {NT : Num T}.
  Notation vec := (list T).
  Notation mat := (list (list T)).
  Notation obj := (obj T).
  Notation ext := (ext T).

  Lemma zeros_length k : length (zeros k : vec) = k.
  Proof. apply repeat_length. Qed.
  Lemma vscale_length c (v : vec) : length (vscale c v) = length v.
  Proof. apply map_length. Qed.
  Lemma mv_length (A : mat) v : length (mv A v) = length A.
  Proof. apply map_length. Qed.
  Lemma transpose_length c (A : mat) : length (transpose c A) = c.
  Proof. unfold transpose; rewrite map_length, seq_length; reflexivity. Qed.
  Lemma column_length j (A : mat) : length (column j A) = length A.
  Proof. apply map_length. Qed.
  Lemma transpose_rows c (A : mat) : Forall (fun r => length r = length A) (transpose c A).
  Proof.
    unfold transpose; apply Forall_forall; intros r Hr; apply in_map_iff in Hr.
    destruct Hr as (j & <- & _); apply column_length.
  Qed.
  Lemma mean0_length c (A : mat) : length (mean0 c A) = c.
  Proof. unfold mean0; rewrite map_length, transpose_length; reflexivity. Qed.
  Lemma identity_length k : length (identity k : mat) = k.
  Proof. unfold identity; rewrite map_length, seq_length; reflexivity. Qed.
  Lemma identity_rows k : Forall (fun r => length r = k) (identity k : mat).
  Proof.
    unfold identity; apply Forall_forall; intros r Hr; apply in_map_iff in Hr.
    destruct Hr as (j & <- & _); rewrite map_length, seq_length; reflexivity.
  Qed.
  Lemma mscale_length c (A : mat) : length (mscale c A) = length A.
  Proof. apply map_length. Qed.
  Lemma mscale_rows c (A : mat) k :
    Forall (fun r => length r = k) A -> Forall (fun r => length r = k) (mscale c A).
  Proof.
    unfold mscale; intros HA; apply Forall_forall; intros r Hr; apply in_map_iff in Hr.
    destruct Hr as (r' & <- & Hr'); rewrite vscale_length.
    rewrite Forall_forall in HA; auto.
  Qed.
  Lemma outer_length (u v : vec) : length (outer u v) = length u.
  Proof. apply map_length. Qed.
  Lemma outer_rows (u v : vec) : Forall (fun r => length r = length v) (outer u v).
  Proof.
    unfold outer; apply Forall_forall; intros r Hr; apply in_map_iff in Hr.
    destruct Hr as (a & <- & _); apply map_length.
  Qed.
  Lemma zeros2_length r c : length (zeros2 r c : mat) = r.
  Proof. apply repeat_length. Qed.
  Lemma zeros2_rows r c : Forall (fun x => length x = c) (zeros2 r c : mat).
  Proof.
    apply Forall_forall; intros x Hx; apply repeat_spec in Hx; subst; apply zeros_length.
  Qed.
  Lemma mm_length c (A B : mat) : length (mm c A B) = length A.
  Proof. apply map_length. Qed.
  Lemma mm_rows c (A B : mat) : Forall (fun r => length r = c) (mm c A B).
  Proof.
    unfold mm; apply Forall_forall; intros r Hr; apply in_map_iff in Hr.
    destruct Hr as (a & <- & _); rewrite map_length, transpose_length; reflexivity.
  Qed.
  Lemma map2_rows (f : T -> T -> T) (A B : mat) c :
    Forall (fun r => length r = c) A -> Forall (fun r => length r = c) B ->
    Forall (fun r => length r = c) (map2 (map2 f) A B).
  Proof.
    intros HA; revert B; induction HA as [|a A Ha HA IH]; intros B HB; simpl; auto.
    destruct HB as [|b B Hb HB]; constructor; auto.
    apply map2_length_eq; auto.
  Qed.
  Lemma mvdot_ok (A : mat) v :
    Forall (fun r => length r = length v) A -> mvdot A v = Ok (mv A v).
  Proof.
    intros HA; unfold mvdot; apply (rect_Forall (length v)) in HA; unfold rect in HA.
    rewrite HA; reflexivity.
  Qed.
  Lemma sqdot_ok (A : mat) v :
    length A = length v -> Forall (fun r => length r = length v) A -> sqdot A v = Ok (mv A v).
  Proof. intros HL HA; unfold sqdot; rewrite HL, Nat.eqb_refl; apply mvdot_ok; exact HA. Qed.
  Lemma vdot_ok (u v : vec) : length u = length v -> vdot u v = Ok (ndot u v).
  Proof. intros Hl; unfold vdot; rewrite Hl, Nat.eqb_refl; reflexivity. Qed.

  Lemma bc_sub2_ok (A B : mat) c :
    length A = length B ->
    Forall (fun r => length r = c) A -> Forall (fun r => length r = c) B ->
    bc_sub2 A B = Ok (map2 (map2 nsub) A B).
  Proof.
    intros Hl HA HB; unfold bc_sub2; rewrite bc_eq by assumption; simpl.
    revert B Hl HB; induction HA as [|a A Ha HA IH]; intros [|b B] Hl HB; simpl in *;
      try discriminate; auto.
    inversion HB; subst; unfold bc_sub at 1; rewrite bc_eq by congruence; simpl.
    rewrite IH by (auto; lia); reflexivity.
  Qed.

  Ltac len := rewrite ?map2_length, ?vscale_length, ?mv_length, ?map_length, ?zeros_length,
      ?mscale_length, ?outer_length, ?identity_length, ?mm_length, ?transpose_length,
      ?column_length in *; lia.

  (** ** Shape invariant *)
  Definition rowsl (c : nat) (A : mat) : Prop := Forall (fun r => length r = c) A.

  Definition wf_ext (n : nat) (x : ext) : Prop :=
    match x with
    | XGNGD _ _ _ lx => length lx = n
    | XRLS _ R => length R = n /\ rowsl n R
    | XOCNLMS _ mem _ mx md idx =>
        1 <= mem /\ length mx = mem /\ rowsl n mx /\ length md = mem /\ idx < mem
    | XAng _ _ _ lx lf _ => length lx = n /\ length lf = n
    | XBenveniste _ _ lx lf _ => length lx = n /\ length lf = n
    | XMathews _ _ lx _ => length lx = n
    | XAP order xm dm _ _ _ _ => 1 <= order /\ length xm = n /\ rowsl order xm /\ length dm = order
    | _ => True
    end.

  Definition wf (n : nat) (o : obj) : Prop :=
    length (o_w o) = n /\ o_n o = n /\ wf_ext n (o_ext o).

  (** same class of filter *)
  Definition kind_eq (a b : ext) : bool :=
    match a, b with
    | XBase, XBase | XLMS, XLMS | XLMF, XLMF | XSSLMS, XSSLMS => true
    | XNLMS _, XNLMS _ | XNLMF _, XNLMF _ | XNSSLMS _, XNSSLMS _ => true
    | XGMCC _ _, XGMCC _ _ | XLlncosh _, XLlncosh _ => true
    | XGNGD _ _ _ _, XGNGD _ _ _ _ => true
    | XRLS _ _, XRLS _ _ => true
    | XOCNLMS _ _ _ _ _ _, XOCNLMS _ _ _ _ _ _ => true
    | XAng _ _ _ _ _ _, XAng _ _ _ _ _ _ => true
    | XBenveniste _ _ _ _ _, XBenveniste _ _ _ _ _ => true
    | XMathews _ _ _ _, XMathews _ _ _ _ => true
    | XAP _ _ _ _ _ _ _, XAP _ _ _ _ _ _ _ => true
    | _, _ => false
    end.

  Lemma kind_eq_refl a : kind_eq a a = true.
  Proof. destruct a; reflexivity. Qed.

  (** what a call may change: everything but the size, the learning rate and the class *)
  Definition frame (o o' : obj) : Prop :=
    o_n o' = o_n o /\ o_mu o' = o_mu o /\ kind_eq (o_ext o) (o_ext o') = true.

  Lemma frame_refl o : frame o o.
  Proof. repeat split; apply kind_eq_refl. Qed.

  Lemma kind_eq_trans a b c : kind_eq a b = true -> kind_eq b c = true -> kind_eq a c = true.
  Proof. destruct a, b; simpl; intros Hab; try discriminate Hab; destruct c; simpl; auto. Qed.

  Lemma frame_trans o1 o2 o3 : frame o1 o2 -> frame o2 o3 -> frame o1 o3.
  Proof.
    intros (A1 & B1 & C1) (A2 & B2 & C2); repeat split; try congruence.
    eapply kind_eq_trans; eauto.
  Qed.

  Ltac unm := unfold bind, get, lift, modify, ret, raise in *.

  Lemma mem_cols n (mx : mat) mem : 1 <= mem -> length mx = mem -> rowsl n mx ->
    length (nth 0 mx []) = n.
  Proof.
    intros Hm Hl HF; destruct mx as [|r mx]; simpl in *; [lia|].
    inversion HF; auto.
  Qed.

  Lemma nth_rows n (mx : mat) i : rowsl n mx -> i < length mx -> length (nth i mx []) = n.
  Proof.
    intros HF Hi; unfold rowsl in HF; rewrite Forall_forall in HF; apply HF.
    apply nth_In; assumption.
  Qed.

  Lemma read_memory_ok n o eps mem em mx md idx :
    wf n o -> o_ext o = XOCNLMS eps mem em mx md idx ->
    exists m_d m_x em' idx',
      read_memory o = (set_ext (XOCNLMS eps mem em' mx md idx') o, Ok (m_d, m_x)) /\
      length m_x = n /\ idx' < mem.
  Proof.
    intros (Hw & Hn & Hx) E; rewrite E in Hx; simpl in Hx.
    destruct Hx as (Hm & Hlx & Hr & Hld & Hi).
    pose proof (mem_cols _ _ _ Hm Hlx Hr) as Hc.
    unfold read_memory; unm; rewrite E, Hc.
    destruct (length mx - 1 <? idx + 1) eqn:Hwrap;
      [ apply Nat.ltb_lt in Hwrap | apply Nat.ltb_ge in Hwrap ];
      destruct em.
    - destruct (idx =? 0); do 4 eexists; (split; [reflexivity|]); split; try lia;
        [ rewrite zeros_length; lia | apply mean0_length ].
    - rewrite Hld; replace (idx <? mem) with true by (symmetry; apply Nat.ltb_lt; lia).
      do 4 eexists; (split; [reflexivity|]); split; [apply mean0_length | lia].
    - destruct (idx =? 0); do 4 eexists; (split; [reflexivity|]); split; try lia;
        [ rewrite zeros_length; lia | apply mean0_length ].
    - rewrite Hld; replace (idx <? mem) with true by (symmetry; apply Nat.ltb_lt; lia).
      do 4 eexists; (split; [reflexivity|]); split; [apply mean0_length | lia].
  Qed.

  Lemma predict_plain o x : is_OCNLMS o = false -> predict x o = (o, vdot (o_w o) x).
  Proof.
    unfold is_OCNLMS, predict; unm; destruct (o_ext o); intros; try discriminate; reflexivity.
  Qed.

  Lemma predict_ok n o x : wf n o -> length x = n ->
    exists o' y, predict x o = (o', Ok y) /\ wf n o' /\ o_w o' = o_w o /\ o_hist o' = o_hist o
                 /\ frame o o'.
  Proof.
    intros Hwf Hl; destruct (is_OCNLMS o) eqn:Eo.
    - unfold is_OCNLMS in Eo.
      destruct (o_ext o) as [| | | | | | | | | | | eps mem em mx md idx | | | |] eqn:E;
        try discriminate.
      destruct (read_memory_ok _ _ _ _ _ _ _ _ Hwf E) as (m_d & m_x & em' & idx' & Hrm & Hlm & Hi).
      destruct Hwf as (Hw & Hn & Hx); rewrite E in Hx; simpl in Hx.
      unfold predict; unfold bind at 1, get at 1; rewrite E.
      unfold bind at 1; rewrite Hrm.
      unfold bind, lift, bc_sub, get, ret.
      rewrite bc_eq by congruence; cbn [set_ext o_w].
      rewrite vdot_ok by (erewrite map2_length_eq; eauto).
      do 2 eexists; split; [reflexivity|].
      repeat split; simpl; auto; try tauto. rewrite E; reflexivity.
    - rewrite predict_plain by assumption.
      rewrite vdot_ok by (destruct Hwf; congruence).
      do 2 eexists; split; [reflexivity|]; repeat split; try apply Hwf; auto using kind_eq_refl.
  Qed.

  Lemma set_ext_wf n o x : wf n o -> wf_ext n x -> wf n (set_ext x o).
  Proof. intros (Hw & Hn & _) Hx; repeat split; auto. Qed.

  Ltac done_ok := do 2 eexists; split; [reflexivity|]; split; [|split; [|split; [reflexivity|]]].

  Lemma learning_rule_ok n o e x : wf n o -> length x = n -> is_AP o = false ->
    (exists o' dw, learning_rule e x o = (o', Ok dw) /\ length dw = n /\ wf n o' /\
                   o_w o' = o_w o /\ o_hist o' = o_hist o /\ frame o o')
    \/ (learning_rule e x o = (o, Err ZeroDivisionError) /\ soft_exn o ZeroDivisionError).
  Proof.
    intros Hwf Hl Hap; unfold is_AP in Hap.
    unfold learning_rule, soft_exn; unfold bind at 1, get at 1.
    destruct (o_ext o) as [| | | | eps | eps | eps | la al | la | eps ro le lx | eps R
        | eps mem em mx md idx | ro a le lx lf lm | ro le lx lf lm | ro le lx lm | ] eqn:E;
      try discriminate Hap.
    (* classes without adaptive attributes *)
    1-9: left; unfold ret; do 2 eexists; split; [reflexivity|];
         rewrite ?map_length, ?zeros_length, ?vscale_length;
         repeat split; try apply Hwf; auto using kind_eq_refl.
    all: pose proof Hwf as (Hw & Hn & Hx); rewrite E in Hx; simpl in Hx.
    - (* GNGD *) left. unfold bind, lift, modify, ret. rewrite vdot_ok by congruence.
      do 2 eexists; split; [reflexivity|]. rewrite vscale_length.
      repeat split; simpl; auto. rewrite E; reflexivity.
    - (* RLS *)
      destruct Hx as (HR1 & HR2); apply rect_Forall in HR2 as HR2'.
      rewrite Hl, HR2', HR1, Nat.eqb_refl; simpl andb; cbv iota.
      destruct (neqb (o_mu o) n0) eqn:Hmu.
      + right; split; [|auto].
        unfold bind, get; rewrite E, ?Hl, HR1, Nat.eqb_refl, HR2'; simpl andb; cbv iota.
        rewrite Hmu; reflexivity.
      + left. unfold bind, modify, ret. do 2 eexists; split; [reflexivity|].
        rewrite map_length, mv_length, mscale_length.
        assert (HL : length (map2 (map2 (fun r r1 : T => nsub r (ndiv r1
              (nadd (o_mu o) (ndot (map (fun c : vec => ndot x c) (transpose n R)) x))))) R
              (mm n (mm n R (outer x x)) R)) = n)
          by (apply map2_length_eq; [assumption | rewrite !mm_length; assumption]).
        rewrite HL; repeat split; simpl; auto.
        * rewrite mscale_length; exact HL.
        * apply mscale_rows, map2_rows; [assumption | apply mm_rows].
        * rewrite E; reflexivity.
    - (* OCNLMS *)
      left; destruct Hx as (Hm & Hlx & Hr & Hld & Hi).
      unfold update_memory_x; unfold bind at 1, bind at 1, get at 1; rewrite E.
      replace (idx <? length mx) with true by (symmetry; apply Nat.ltb_lt; lia).
      rewrite (nth_rows n) by (auto; lia); rewrite Hl, Nat.eqb_refl.
      unfold bind at 1, ret at 1, modify at 1.
      set (mx' := set_nth idx x mx).
      set (o1 := set_ext (XOCNLMS eps mem em mx' md idx) o).
      assert (Hwf1 : wf n o1).
      { apply set_ext_wf; auto; simpl; unfold mx'; rewrite set_nth_length.
        repeat split; auto; apply set_nth_Forall; auto. }
      destruct (read_memory_ok n o1 _ _ _ _ _ _ Hwf1 eq_refl)
        as (m_d & m_x & em' & idx' & Hrm & Hlm & Hi').
      unfold bind at 1; rewrite Hrm.
      unfold bind at 1, lift at 1; unfold bc_sub; rewrite bc_eq by congruence.
      assert (Hd : length (map2 nsub x m_x) = n) by (apply map2_length_eq; auto).
      unfold bind at 1, get at 1, bind at 1, lift at 1.
      cbn [o1 set_ext o_w o_ext o_mu].
      rewrite vdot_ok by congruence.
      unfold update_memory_d; unfold bind at 1, bind at 1, get at 1.
      cbn [set_ext o_ext].
      replace ((if idx' =? 0 then length md - 1 else idx' - 1) <? length md) with true
        by (symmetry; apply Nat.ltb_lt; destruct (idx' =? 0); lia).
      unfold modify, ret.
      do 2 eexists; split; [reflexivity|]. rewrite vscale_length.
      split; [exact Hd|]. split; [|repeat split; simpl; rewrite ?E; auto].
      repeat split; simpl; auto; unfold mx'; rewrite ?set_nth_length; auto.
      apply set_nth_Forall; auto.
    - (* Ang *)
      destruct Hx as (Hlx & Hlf); left.
      unfold bind, lift, modify, ret, bc_add.
      rewrite bc_eq by (rewrite !vscale_length; congruence).
      rewrite vdot_ok by len.
      do 2 eexists; split; [reflexivity|]. rewrite vscale_length.
      repeat split; simpl; auto.
      + apply map2_length_eq; rewrite vscale_length; auto.
      + rewrite E; reflexivity.
    - (* Benveniste *)
      destruct Hx as (Hlx & Hlf); left.
      unfold bind, lift, modify, ret, bc_add.
      assert (HrI : rowsl n (identity (o_n o))) by (rewrite Hn; apply identity_rows).
      assert (HrO : rowsl n (mscale lm (outer lx lx))).
      { apply mscale_rows. pose proof (outer_rows lx lx) as Ho; rewrite Hlx in Ho; exact Ho. }
      rewrite (bc_sub2_ok _ _ n); auto.
      2:{ rewrite identity_length, mscale_length, outer_length; congruence. }
      assert (HlF : length (map2 (map2 nsub) (identity (o_n o)) (mscale lm (outer lx lx))) = n).
      { apply map2_length_eq; [rewrite identity_length; auto|].
        rewrite mscale_length, outer_length; auto. }
      rewrite sqdot_ok by (rewrite ?Hlf; auto; apply map2_rows; auto).
      rewrite bc_eq by (rewrite mv_length, vscale_length; congruence).
      rewrite vdot_ok by (rewrite map2_length, mv_length; len).
      do 2 eexists; split; [reflexivity|]. rewrite vscale_length.
      repeat split; simpl; auto.
      + apply map2_length_eq; rewrite ?mv_length, ?vscale_length; auto.
      + rewrite E; reflexivity.
    - (* Mathews *)
      left; unfold bind, lift, modify, ret. rewrite vdot_ok by congruence.
      do 2 eexists; split; [reflexivity|]. rewrite vscale_length.
      repeat split; simpl; auto. rewrite E; reflexivity.
  Qed.

  Lemma iadd_w_ok n o dw : length (o_w o) = n -> length dw = n ->
    iadd_w dw o = (set_w (map2 nadd (o_w o) dw) o, Ok tt).
  Proof.
    intros H1 H2; unfold iadd_w; unm; rewrite H1, H2, Nat.eqb_refl; reflexivity.
  Qed.

  Lemma adapt_base_ok n o d x : wf n o -> length x = n -> is_AP o = false ->
    (exists o', adapt_base d x o = (o', Ok tt) /\ wf n o' /\ o_hist o' = o_hist o /\ frame o o')
    \/ (adapt_base d x o = (o, Err ZeroDivisionError) /\ soft_exn o ZeroDivisionError).
  Proof.
    intros Hwf Hl Hap; unfold adapt_base.
    destruct (predict_ok _ _ _ Hwf Hl) as (o1 & y & Hp & Hwf1 & Hw1 & Hh1 & Hf1).
    unfold bind at 1; rewrite Hp.
    assert (Hap1 : is_AP o1 = false).
    { destruct Hf1 as (_ & _ & Hk); unfold is_AP in *; destruct (o_ext o), (o_ext o1); auto; discriminate. }
    destruct (learning_rule_ok n o1 (nsub d y) x Hwf1 Hl Hap1)
      as [(o2 & dw & Hlr & Hld & Hwf2 & Hw2 & Hh2 & Hf2) | (Hlr & Hs)].
    - left; unfold bind; rewrite Hlr.
      rewrite (iadd_w_ok n) by (auto; apply Hwf2).
      eexists; split; [reflexivity|]. repeat split; simpl; try apply Hwf2.
      + apply map2_length_eq; auto; apply Hwf2.
      + congruence.
      + destruct Hf1, Hf2; congruence.
      + destruct Hf1 as (?&?&?), Hf2 as (?&?&?); congruence.
      + destruct Hf1 as (?&?&?), Hf2 as (?&?&?); eapply kind_eq_trans; eauto.
    - right. unfold bind; rewrite Hp, Hlr.
      assert (o1 = o).
      { destruct (is_OCNLMS o) eqn:Ho.
        - exfalso. unfold is_OCNLMS, soft_exn in *; destruct Hf1 as (_ & _ & Hk).
          destruct (o_ext o); try discriminate; destruct (o_ext o1); try discriminate; exact Hs.
        - rewrite predict_plain in Hp by assumption; congruence. }
      subst; auto.
  Qed.

  (** ** AP *)
  Lemma mv_transpose_ok n order (xm : mat) (w : vec) : length xm = n -> length w = n ->
    mvdot (transpose order xm) w = Ok (mv (transpose order xm) w).
  Proof.
    intros H1 H2; apply mvdot_ok; rewrite H2, <- H1; apply transpose_rows.
  Qed.

  (** memory after pushing one sample *)
  Definition push_x (order : nat) (xm : mat) (x : vec) : mat :=
    map2 (fun xi r => xi :: firstn (order - 1) r) x xm.
  Definition push_d (order : nat) (dm : vec) (d : T) : vec := d :: firstn (order - 1) dm.

  Lemma push_x_length n order xm x : length xm = n -> length x = n -> length (push_x order xm x) = n.
  Proof. intros; apply map2_length_eq; auto. Qed.

  Lemma push_x_rows order xm x : 1 <= order -> rowsl order xm -> rowsl order (push_x order xm x).
  Proof.
    intros Ho HF; revert x; induction HF as [|r xm Hr HF IH]; intros [|xi x]; simpl; constructor.
    - simpl; rewrite firstn_length; lia.
    - apply IH.
  Qed.

  Lemma push_d_length order dm d : 1 <= order -> length dm = order -> length (push_d order dm d) = order.
  Proof. intros; unfold push_d; simpl; rewrite firstn_length; lia. Qed.

  Lemma ap_push_x_eq o order xm dm ii id ym em x :
    o_ext o = XAP order xm dm ii id ym em -> 1 <= order -> rowsl order xm -> length x = length xm ->
    ap_push_x x o = (set_ext (XAP order (push_x order xm x) dm ii id ym em) o, Ok tt).
  Proof.
    intros E Ho HF Hl; unfold ap_push_x; unm; rewrite E.
    replace (order =? 0) with false by (symmetry; apply Nat.eqb_neq; lia).
    rewrite Hl, Nat.eqb_refl; cbn [set_ext o_w o_n o_mu o_hist o_ext].
    f_equal. unfold set_ext; simpl; f_equal; f_equal.
    unfold push_x; clear -Ho HF; revert x.
    induction HF as [|r xm Hr HF IH]; intros [|xi x]; simpl; auto.
    f_equal; [|apply IH]. f_equal. destruct r; simpl in *; [lia|reflexivity].
  Qed.

  Lemma ap_push_d_eq o order xm dm ii id ym em d :
    o_ext o = XAP order xm dm ii id ym em -> 1 <= order -> length dm = order ->
    ap_push_d d o = (set_ext (XAP order xm (push_d order dm d) ii id ym em) o, Ok tt).
  Proof.
    intros E Ho Hl; unfold ap_push_d; unm; rewrite E; unfold push_d.
    destruct dm; simpl in *; [lia|reflexivity].
  Qed.

  Lemma ap_estimate_eq n o order xm dm ii id ym em :
    o_ext o = XAP order xm dm ii id ym em -> length xm = n -> length (o_w o) = n ->
    ap_estimate o =
      (let y := mv (transpose order xm) (o_w o) in
       (set_ext (XAP order xm dm ii id y (map2 nsub dm y)) o, Ok tt)).
  Proof.
    intros E H1 H2; unfold ap_estimate; unm; rewrite E.
    rewrite (mv_transpose_ok n) by assumption; reflexivity.
  Qed.

  (** one AP sample, as a value *)
  Definition ap_next (o : obj) (d : T) (x : vec) : obj :=
    match o_ext o with
    | XAP order xm dm ii id ym em =>
        let xm' := push_x order xm x in
        let dm' := push_d order dm d in
        let y := mv (transpose order xm') (o_w o) in
        set_ext (XAP order xm' dm' ii id y (map2 nsub dm' y)) o
    | _ => o
    end.

  Lemma adapt_AP_eq n o d x : wf n o -> length x = n -> is_AP o = true ->
    adapt_AP d x o =
      (let o1 := ap_next o d x in
       match o_ext o1 with
       | XAP order xm dm ii id ym em =>
           match ap_learning_rule (o_mu o) order ii id em xm with
           | Ok dw => (set_w (map2 nadd (o_w o) dw) o1, Ok tt)
           | Err x => (o1, Err x)
           end
       | _ => (o1, Ok tt)
       end).
  Proof.
    intros (Hw & Hn & Hx) Hl Hap; unfold is_AP in Hap.
    destruct (o_ext o) as [| | | | | | | | | | | | | | | order xm dm ii id ym em] eqn:E;
      try discriminate; simpl in Hx; destruct Hx as (Ho & Hlx & Hr & Hld).
    unfold adapt_AP, ap_next; rewrite E.
    unfold bind at 1; rewrite (ap_push_x_eq _ _ _ _ _ _ _ _ _ E) by (auto; congruence).
    unfold bind at 1; erewrite ap_push_d_eq by (simpl; eauto).
    unfold bind at 1; erewrite (ap_estimate_eq n); [|reflexivity| |].
    2:{ apply push_x_length; auto. } 2:{ exact Hw. }
    unfold bind, get; cbn [set_ext o_ext o_w o_mu o_n o_hist].
    unfold ap_learning_rule.
    destruct (nsolve _ _) as [p2|]; [|reflexivity].
    rewrite (iadd_w_ok n); [reflexivity|exact Hw|].
    rewrite vscale_length, mv_length. apply push_x_length; auto.
  Qed.

  Lemma ap_next_wf n o d x : wf n o -> length x = n -> wf n (ap_next o d x).
  Proof.
    intros Hwf Hl; unfold ap_next; destruct (o_ext o) eqn:E; auto.
    destruct Hwf as (Hw & Hn & Hx); rewrite E in Hx; simpl in Hx.
    destruct Hx as (Ho & Hlx & Hr & Hld).
    split; [exact Hw|split; [exact Hn|]]. cbn [o_ext set_ext wf_ext].
    split; [exact Ho|split; [|split]].
    - apply push_x_length; auto.
    - apply push_x_rows; auto.
    - apply push_d_length; auto.
  Qed.

  Lemma ap_next_frame o d x : frame o (ap_next o d x).
  Proof. unfold ap_next, frame; destruct (o_ext o) eqn:E; simpl; rewrite ?E; auto. Qed.

  Lemma ap_learning_rule_res mu order ii id em (xm : mat) :
    (exists dw, ap_learning_rule mu order ii id em xm = Ok dw /\ length dw = length xm) \/
    ap_learning_rule mu order ii id em xm = Err LinAlgError.
  Proof.
    unfold ap_learning_rule; destruct (nsolve _ _); [left|right]; auto.
    eexists; split; [reflexivity|]. rewrite vscale_length, mv_length; reflexivity.
  Qed.

  Lemma adapt_ok n o d x : wf n o -> length x = n ->
    exists o' r, adapt d x o = (o', r) /\ wf n o' /\ o_hist o' = o_hist o /\ frame o o' /\
      (r = Ok tt \/ (exists ex, r = Err ex /\ soft_exn o ex /\ o_w o' = o_w o)).
  Proof.
    intros Hwf Hl; unfold adapt; unfold bind, get.
    destruct (is_AP o) eqn:Hap.
    - rewrite (adapt_AP_eq n) by assumption; cbv zeta.
      pose proof (ap_next_wf n o d x Hwf Hl) as Hwf1.
      pose proof (ap_next_frame o d x) as Hf1.
      assert (Hh1 : o_hist (ap_next o d x) = o_hist o) by (unfold ap_next; destruct (o_ext o); auto).
      assert (Hw1 : o_w (ap_next o d x) = o_w o) by (unfold ap_next; destruct (o_ext o); auto).
      destruct (o_ext (ap_next o d x)) as [| | | | | | | | | | | | | | | order xm dm ii id ym em] eqn:E1;
        try (exfalso; destruct Hf1 as (_ & _ & Hk); unfold is_AP in Hap; rewrite E1 in Hk;
             destruct (o_ext o); discriminate).
      destruct (ap_learning_rule_res (o_mu o) order ii id em xm) as [(dw & -> & Hld) | ->].
      + do 2 eexists; split; [reflexivity|].
        destruct Hwf1 as (Hww & Hnn & Hxx).
        split; [|split; [|split]]; auto.
        repeat split; simpl; auto.
        rewrite E1 in Hxx; simpl in Hxx. apply map2_length_eq; [congruence|]. lia.
      + do 2 eexists; split; [reflexivity|]. repeat split; try apply Hwf1; try apply Hf1; auto.
        right; exists LinAlgError; repeat split; auto.
        unfold soft_exn, is_AP in *; destruct (o_ext o); try discriminate; reflexivity.
    - destruct (adapt_base_ok n o d x Hwf Hl Hap) as [(o' & -> & H1 & H2 & H3) | (-> & Hs)].
      + do 2 eexists; split; [reflexivity|]. auto.
      + do 2 eexists; split; [reflexivity|]. repeat split; try apply Hwf; auto using kind_eq_refl.
        right; eauto.
  Qed.
End S.
