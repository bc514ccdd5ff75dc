(** Model of padasip/filters: the base classes (base_filter.py) and the fifteen filter classes.
    A filter object is a record of its attributes; methods are state transformers ([Py.M]).
    Aliasing of arrays is not represented here (every array is a value): the only places where it is
    observable are treated in Alias.v. *)
From Coq Require Import QArith.
From Verif Require Import Py Num Numpy.
Open Scope nat_scope.

Section Filters.
  Context {T : Type} {NT : Num T}.
  Notation vec := (list T).
  Notation mat := (list (list T)).
  Local Open Scope py_scope.

  (** Attributes a class adds to those of AdaptiveFilter.
      - [XBase]       base_filter.py:9 AdaptiveFilter itself
      - [XLMS]        lms.py:154
      - [XLMF]        lmf.py:89
      - [XSSLMS]      sslms.py:93
      - [XNLMS]       nlms.py:150-158 (eps)
      - [XNLMF]       nlmf.py:84-93 (eps)
      - [XNSSLMS]     nsslms.py:86-94 (eps)
      - [XGMCC]       gmcc.py:66-76 (lambd, alpha)
      - [XLlncosh]    llncosh.py:80-88 (lambd)
      - [XGNGD]       gngd.py:68-83 (eps, ro, last_e, last_x)
      - [XRLS]        rls.py:168-177 (eps, R)
      - [XOCNLMS]     ocnlms.py:81-95,124-131 (eps, mem, mem_empty, mem_x, mem_d, mem_idx)
      - [XAng]        vslms_ang.py:77-94 (ro, a, last_e, last_x, last_fi, last_mu)
      - [XBenveniste] vslms_benveniste.py:77-90 (ro, last_e, last_x, last_fi, last_mu)
      - [XMathews]    vslms_mathews.py:77-89 (ro, last_e, last_x, last_mu)
      - [XAP]         base_filter.py:219-237 (order, x_mem, d_mem, ide_ifc, ide, y_mem, e_mem);
                      y_mem and e_mem are [False] until the first sample, here the empty array. *)
  Inductive ext : Type :=
  | XBase
  | XLMS
  | XLMF
  | XSSLMS
  | XNLMS (eps : T)
  | XNLMF (eps : T)
  | XNSSLMS (eps : T)
  | XGMCC (lambd alpha : T)
  | XLlncosh (lambd : T)
  | XGNGD (eps ro last_e : T) (last_x : vec)
  | XRLS (eps : T) (R : mat)
  | XOCNLMS (eps : T) (mem : nat) (mem_empty : bool) (mem_x : mat) (mem_d : vec) (mem_idx : nat)
  | XAng (ro a last_e : T) (last_x last_fi : vec) (last_mu : T)
  | XBenveniste (ro last_e : T) (last_x last_fi : vec) (last_mu : T)
  | XMathews (ro last_e : T) (last_x : vec) (last_mu : T)
  | XAP (order : nat) (x_mem : mat) (d_mem : vec) (ide_ifc ide : mat) (y_mem e_mem : vec).

  (** A filter object: base_filter.py:38-41 (w, n, w_history, mu) and the class attributes.
      w_history is [False] before the first run, here [None]. *)
  Record obj : Type := mkObj {
    o_w : vec;
    o_n : nat;
    o_mu : T;
    o_hist : option mat;
    o_ext : ext
  }.

  (* base_filter.py:38,166,210,277,331 *)
  Definition set_w (w : vec) (o : obj) : obj := mkObj w (o_n o) (o_mu o) (o_hist o) (o_ext o).
  (* base_filter.py:39,194,306 *)
  Definition set_n (n : nat) (o : obj) : obj := mkObj (o_w o) n (o_mu o) (o_hist o) (o_ext o).
  (* base_filter.py:40,204,207,316,319 *)
  Definition set_hist (h : mat) (o : obj) : obj := mkObj (o_w o) (o_n o) (o_mu o) (Some h) (o_ext o).
  (* assignment to the attributes of the class, e.g. gngd.py:89,93; rls.py:185; base_filter.py:266-272 *)
  Definition set_ext (x : ext) (o : obj) : obj := mkObj (o_w o) (o_n o) (o_mu o) (o_hist o) x.

  (** ocnlms.py:145-164 FilterOCNLMS.read_memory.
      numpy's nan for the mean of an empty array (mem = 1) is [mean []] of the arithmetic. *)
  Definition read_memory : M obj (T * vec) :=
    o <- get ;;
    match o_ext o with
    | XOCNLMS eps mem mem_empty mem_x mem_d mem_idx =>
        '(m_d, m_x) <-
          (if mem_empty then
             if mem_idx =? 0 then ret (n0, zeros (o_n o))
             else
               let rows := firstn (mem_idx + 1) mem_x in
               ret (mean (firstn mem_idx mem_d), mean0 (length (nth 0 mem_x [])) rows)
           else
             if mem_idx <? length mem_d
             then ret (mean (delete mem_idx mem_d), mean0 (length (nth 0 mem_x [])) mem_x)
             else raise IndexError) ;;
        let idx := mem_idx + 1 in
        let '(idx', empty') :=
          if length mem_x - 1 <? idx then (0, false) else (idx, mem_empty) in
        modify (set_ext (XOCNLMS eps mem empty' mem_x mem_d idx')) ;;;
        ret (m_d, m_x)
    | _ => raise AttributeError
    end.

  (** ocnlms.py:139-143 FilterOCNLMS.update_memory_x *)
  Definition update_memory_x (x_k : vec) : M obj unit :=
    o <- get ;;
    match o_ext o with
    | XOCNLMS eps mem mem_empty mem_x mem_d mem_idx =>
        if mem_idx <? length mem_x then
          let c := length (nth mem_idx mem_x []) in
          row <- (if length x_k =? c then ret x_k
                  else match x_k with [a] => ret (repeat a c) | _ => raise ValueError end) ;;
          modify (set_ext (XOCNLMS eps mem mem_empty (set_nth mem_idx row mem_x) mem_d mem_idx))
        else raise IndexError
    | _ => raise AttributeError
    end.

  (** ocnlms.py:133-137 FilterOCNLMS.update_memory_d: index mem_idx - 1, so -1 (the last slot)
      when mem_idx = 0. *)
  Definition update_memory_d (d_k : T) : M obj unit :=
    o <- get ;;
    match o_ext o with
    | XOCNLMS eps mem mem_empty mem_x mem_d mem_idx =>
        let i := if mem_idx =? 0 then length mem_d - 1 else mem_idx - 1 in
        if i <? length mem_d then
          modify (set_ext (XOCNLMS eps mem mem_empty mem_x (set_nth i d_k mem_d) mem_idx))
        else raise IndexError
    | _ => raise AttributeError
    end.

  (** ocnlms.py:124-131 FilterOCNLMS.clear_memory *)
  Definition clear_memory : M obj unit :=
    o <- get ;;
    match o_ext o with
    | XOCNLMS eps mem _ _ _ _ =>
        modify (set_ext (XOCNLMS eps mem true (zeros2 mem (o_n o)) (zeros mem) 0))
    | _ => raise AttributeError
    end.

  (** base_filter.py:101-114 AdaptiveFilter.predict and, for OCNLMS, ocnlms.py:107-122.
      AP inherits the base predict. *)
  Definition predict (x : vec) : M obj T :=
    o <- get ;;
    match o_ext o with
    | XOCNLMS _ _ _ _ _ _ =>
        '(m_d, m_x) <- read_memory ;;
        dx <- lift (bc_sub x m_x) ;;
        o' <- get ;;
        y <- lift (vdot (o_w o') dx) ;;
        ret (nadd y m_d)
    | _ => lift (vdot (o_w o) x)
    end.

  (** ap.py:157-163 FilterAP.learning_rule.  [x_mem] is an n x order array. *)
  Definition ap_learning_rule (mu : T) (order : nat) (ide_ifc ide : mat) (e_mem : vec) (x_mem : mat)
    : result vec :=
    let xt := transpose order x_mem in
    let dw_part1 := map2 (map2 nadd) (mm order xt x_mem) ide_ifc in
    match nsolve dw_part1 ide with
    | None => Err LinAlgError
    | Some dw_part2 => Ok (vscale mu (mv x_mem (mv dw_part2 e_mem)))
    end.

  (** learning_rule(e, x) of every class that uses the base run/adapt. Operations are in source
      order and with source associativity. *)
  (* the file and lines of each class stand at its case *)
  Definition learning_rule (e : T) (x : vec) : M obj vec :=
    o <- get ;;
    let mu := o_mu o in
    match o_ext o with
    (* base_filter.py:43-57 *)
    | XBase => ret (zeros (length x))
    (* lms.py:160-164   self.mu * x * e *)
    | XLMS => ret (map (fun xi => nmul (nmul mu xi) e) x)
    (* lmf.py:95-99     self.mu * x * e ** 3 *)
    | XLMF => ret (map (fun xi => nmul (nmul mu xi) (npown e 3)) x)
    (* sslms.py:99-103  self.mu * np.sign(x) * np.sign(e) *)
    | XSSLMS => ret (map (fun xi => nmul (nmul mu (nsign xi)) (nsign e)) x)
    (* nlms.py:160-164  self.mu / (self.eps + np.dot(x, x)) * x * e *)
    | XNLMS eps =>
        let c := ndiv mu (nadd eps (ndot x x)) in
        ret (map (fun xi => nmul (nmul c xi) e) x)
    (* nlmf.py:95-99    self.mu / (self.eps + np.dot(x, x)) * x * e ** 3 *)
    | XNLMF eps =>
        let c := ndiv mu (nadd eps (ndot x x)) in
        ret (map (fun xi => nmul (nmul c xi) (npown e 3)) x)
    (* nsslms.py:96-100 self.mu / (self.eps + np.dot(x, x)) * np.sign(x) * np.sign(e) *)
    | XNSSLMS eps =>
        let c := ndiv mu (nadd eps (ndot x x)) in
        ret (map (fun xi => nmul (nmul c (nsign xi)) (nsign e)) x)
    (* gmcc.py:78-84    mu * lambd * alpha * exp(-lambd * |e|**alpha) * |e|**(alpha-1) * sign(e) * x *)
    | XGMCC lambd alpha =>
        let c := nmul (nmul (nmul (nmul (nmul mu lambd) alpha)
                     (nexp (nmul (nopp lambd) (npow (nabs e) alpha))))
                     (npow (nabs e) (nsub alpha n1)))
                     (nsign e) in
        ret (vscale c x)
    (* llncosh.py:90-94 self.mu * np.tanh(self.lambd * e) * x *)
    | XLlncosh lambd => ret (vscale (nmul mu (ntanh (nmul lambd e))) x)
    (* gngd.py:85-94 *)
    | XGNGD eps ro last_e last_x =>
        dxl <- lift (vdot x last_x) ;;
        let eps' := nsub eps
              (ndiv (nmul (nmul (nmul (nmul ro mu) e) last_e) dxl)
                    (npown (nadd (ndot last_x last_x) eps) 2)) in
        let nu := ndiv mu (nadd eps' (ndot x x)) in
        modify (set_ext (XGNGD eps' ro e x)) ;;;
        ret (vscale (nmul nu e) x)
    (* rls.py:179-186; the products need R to be a len(x) x len(x) array, 1 / self.mu is Python
       float division *)
    | XRLS eps R =>
        let k := length x in
        if (length R =? k) && rect k R then
          let R1 := mm k (mm k R (outer x x)) R in
          let R2 := nadd mu (ndot (map (fun c => ndot x c) (transpose k R)) x) in
          if neqb mu n0 then raise ZeroDivisionError
          else
            let R' := mscale (ndiv n1 mu)
                        (map2 (map2 (fun r r1 => nsub r (ndiv r1 R2))) R R1) in
            modify (set_ext (XRLS eps R')) ;;;
            ret (map (fun a => nmul a e) (mv R' x))
        else raise ValueError
    (* ocnlms.py:97-105 *)
    | XOCNLMS eps _ _ _ _ _ =>
        update_memory_x x ;;;
        '(m_d, m_x) <- read_memory ;;
        dx <- lift (bc_sub x m_x) ;;
        o' <- get ;;
        y0 <- lift (vdot (o_w o') dx) ;;
        let y := nadd y0 m_d in
        update_memory_d (nadd e y) ;;;
        ret (vscale (nmul (ndiv mu (nadd eps (ndot dx dx))) e) dx)
    (* vslms_ang.py:96-103 *)
    | XAng ro a last_e last_x last_fi last_mu =>
        fi <- lift (bc_add (vscale a last_fi) (vscale last_e last_x)) ;;
        lf <- lift (vdot last_x fi) ;;
        let mu' := nadd last_mu (nmul (nmul ro e) lf) in
        modify (set_ext (XAng ro a e x fi mu')) ;;;
        ret (vscale (nmul mu' e) x)
    (* vslms_benveniste.py:92-100 *)
    | XBenveniste ro last_e last_x last_fi last_mu =>
        fi_part <- lift (bc_sub2 (identity (o_n o)) (mscale last_mu (outer last_x last_x))) ;;
        fi0 <- lift (sqdot fi_part last_fi) ;;
        fi <- lift (bc_add fi0 (vscale last_e last_x)) ;;
        lf <- lift (vdot last_x fi) ;;
        let mu' := nadd last_mu (nmul (nmul ro e) lf) in
        modify (set_ext (XBenveniste ro e x fi mu')) ;;;
        ret (vscale (nmul mu' e) x)
    (* vslms_mathews.py:91-97 *)
    | XMathews ro last_e last_x last_mu =>
        lx <- lift (vdot last_x x) ;;
        let mu' := nadd last_mu (nmul (nmul (nmul ro e) last_e) lx) in
        modify (set_ext (XMathews ro e x mu')) ;;;
        ret (vscale (nmul mu' e) x)
    (* AP: learning_rule is called with matrices, see [step_AP]; not reached from base run *)
    | XAP _ _ _ _ _ _ _ => raise AttributeError
    end.

  (** [self.w += dw] (base_filter.py:166,210,277,331): in place, dw must broadcast to w's shape *)
  Definition iadd_w (dw : vec) : M obj unit :=
    o <- get ;;
    if length dw =? length (o_w o) then modify (set_w (map2 nadd (o_w o) dw))
    else match dw with
         | [a] => modify (set_w (map (fun wi => nadd wi a) (o_w o)))
         | _ => raise ValueError
         end.

  (** base_filter.py:207,319  self.w_history[k, :] = self.w (broadcast to the n columns) *)
  Definition hist_set (k : nat) : M obj unit :=
    o <- get ;;
    match o_hist o with
    | None => raise TypeError
    | Some h =>
        row <- (if length (o_w o) =? o_n o then ret (o_w o)
                else match o_w o with [a] => ret (repeat a (o_n o)) | _ => raise ValueError end) ;;
        modify (set_hist (set_nth k row h))
    end.

  (** base_filter.py:154-166 AdaptiveFilter.adapt *)
  Definition adapt_base (d : T) (x : vec) : M obj unit :=
    y <- predict x ;;
    let e := nsub d y in
    dw <- learning_rule e x ;;
    iadd_w dw.

  (** body of the loop in AdaptiveFilter.run, base_filter.py:206-210; returns (y[k], e[k]) *)
  Definition run_body_base (k : nat) (d : T) (x : vec) : M obj (T * T) :=
    hist_set k ;;;
    y <- predict x ;;
    let e := nsub d y in
    dw <- learning_rule e x ;;
    iadd_w dw ;;;
    ret (y, e).

  (** base_filter.py:266-267 (and 321-322): shift x_mem right by one column, write x into column 0.
      The shift is done before the assignment that may fail on a bad shape. *)
  Definition ap_push_x (x : vec) : M obj unit :=
    o <- get ;;
    match o_ext o with
    | XAP order x_mem d_mem ii id ym em =>
        let shifted := map (fun r => firstn 1 r ++ firstn (order - 1) r) x_mem in
        modify (set_ext (XAP order shifted d_mem ii id ym em)) ;;;
        if order =? 0 then raise IndexError
        else
          x' <- (if length x =? length x_mem then ret x
                 else match x with [a] => ret (repeat a (length x_mem)) | _ => raise ValueError end) ;;
          modify (set_ext (XAP order (map2 (fun xi r => xi :: tl r) x' shifted) d_mem ii id ym em))
    | _ => raise AttributeError
    end.

  (** base_filter.py:268-269 (and 323-324) *)
  Definition ap_push_d (d : T) : M obj unit :=
    o <- get ;;
    match o_ext o with
    | XAP order x_mem d_mem ii id ym em =>
        let shifted := firstn 1 d_mem ++ firstn (order - 1) d_mem in
        modify (set_ext (XAP order x_mem (d :: tl shifted) ii id ym em))
    | _ => raise AttributeError
    end.

  (** base_filter.py:271-272 (and 326-327): y_mem and e_mem *)
  Definition ap_estimate : M obj unit :=
    o <- get ;;
    match o_ext o with
    | XAP order x_mem d_mem ii id ym em =>
        y_mem <- lift (mvdot (transpose order x_mem) (o_w o)) ;;
        let e_mem := map2 nsub d_mem y_mem in
        modify (set_ext (XAP order x_mem d_mem ii id y_mem e_mem))
    | _ => raise AttributeError
    end.

  (** base_filter.py:255-277 AdaptiveFilterAP.adapt: the update is written out in the method *)
  Definition adapt_AP (d : T) (x : vec) : M obj unit :=
    ap_push_x x ;;;
    ap_push_d d ;;;
    ap_estimate ;;;
    o <- get ;;
    match o_ext o with
    | XAP order x_mem d_mem ide_ifc ide y_mem e_mem =>
        let dw_part1 := map2 (map2 nadd) (mm order (transpose order x_mem) x_mem) ide_ifc in
        match nsolve dw_part1 ide with
        | None => raise LinAlgError
        | Some dw_part2 =>
            let dw := mv x_mem (mv dw_part2 e_mem) in
            iadd_w (vscale (o_mu o) dw)
        end
    | _ => raise AttributeError
    end.

  (** body of the loop in AdaptiveFilterAP.run, base_filter.py:318-331 *)
  Definition run_body_AP (k : nat) (d : T) (x : vec) : M obj (T * T) :=
    hist_set k ;;;
    ap_push_x x ;;;
    ap_push_d d ;;;
    ap_estimate ;;;
    o <- get ;;
    match o_ext o with
    | XAP order x_mem d_mem ide_ifc ide y_mem e_mem =>
        let y := nth 0 y_mem n0 in
        let e := nth 0 e_mem n0 in
        dw <- lift (ap_learning_rule (o_mu o) order ide_ifc ide e_mem x_mem) ;;
        iadd_w dw ;;;
        ret (y, e)
    | _ => raise AttributeError
    end.

  (** method resolution: FilterAP inherits adapt and run from AdaptiveFilterAP, all other classes
      from AdaptiveFilter *)
  (* base_filter.py:154,168,255,279; ap.py:151 *)
  Definition is_AP (o : obj) : bool :=
    match o_ext o with XAP _ _ _ _ _ _ _ => true | _ => false end.

  (* base_filter.py:154,168,255,279; ap.py:151 *)
  Definition adapt (d : T) (x : vec) : M obj unit :=
    o <- get ;; if is_AP o then adapt_AP d x else adapt_base d x.

  (* base_filter.py:154,168,255,279; ap.py:151 *)
  Definition run_body (k : nat) (d : T) (x : vec) : M obj (T * T) :=
    o <- get ;; if is_AP o then run_body_AP k d x else run_body_base k d x.

  (** the loop [for k in range(N)] over the rows (base_filter.py:206-210 and 318-331); y[k] and e[k]
      are written once each in increasing k, so the arrays are built as lists *)
  Fixpoint run_loop (k : nat) (ds : vec) (xs : mat) : M obj (vec * vec) :=
    match ds, xs with
    | d :: ds', x :: xs' =>
        '(y, e) <- run_body k d x ;;
        '(ys, es) <- run_loop (S k) ds' xs' ;;
        ret (y :: ys, e :: es)
    | _, _ => ret ([], [])
    end.

  (** base_filter.py:168-211 AdaptiveFilter.run and 279-332 AdaptiveFilterAP.run (their texts differ
      only in the loop body).  [np.array(x)] of ragged rows raises, which the code turns into
      ValueError (numpy >= 1.24).  The returned history is the attribute w_history. *)
  Definition run (d : vec) (x : mat) : M obj (vec * vec * mat) :=
    let N := length x in
    if negb (length d =? N) then raise ValueError
    else
      match x with
      | [] => raise IndexError
      | x0 :: _ =>
          modify (set_n (length x0)) ;;;
          if negb (rect (length x0) x) then raise ValueError
          else
            modify (set_hist (zeros2 N (length x0))) ;;;
            '(y, e) <- run_loop 0 d x ;;
            o <- get ;;
            match o_hist o with
            | Some h => ret (y, e, h)
            | None => raise TypeError
            end
      end.

  (** base_filter.py:116-152 AdaptiveFilter.pretrained_run *)
  Definition pretrained_run (d : vec) (x : mat) (ntrain : T) (epochs : nat)
    : M obj (vec * vec * mat) :=
    let Ntrain := ntrunc (nmul (nofnat (length d)) ntrain) in
    repeat_m epochs (run (slice_to d Ntrain) (slice_to x Ntrain) ;;; ret tt) ;;;
    run (slice_from d Ntrain) (slice_from x Ntrain).

  (** ** Construction *)

  (** the argument w: a string or an array *)
  (* base_filter.py:85-98 *)
  Inductive wspec : Type := WStr (s : string) | WVec (v : vec).

  (** base_filter.py:59-99 init_weights for an explicit n.  [rng k] stands for
      np.random.normal(0, 0.5, k).  np.zeros/np.random.normal of a negative size raise ValueError. *)
  Definition init_weights (rng : nat -> vec) (w : wspec) (n : Z) : result vec :=
    match w with
    | WStr s =>
        if String.eqb s "random" then
          if (n <? 0)%Z then Err ValueError else Ok (rng (Z.to_nat n))
        else if String.eqb s "zeros" then
          if (n <? 0)%Z then Err ValueError else Ok (zeros (Z.to_nat n))
        else Err ValueError
    | WVec v => if (Z.of_nat (length v) =? n)%Z then Ok v else Err ValueError
    end.

  (** init_weights called on a built filter: n == -1 means self.n (base_filter.py:83-84) *)
  Definition init_weights_method (rng : nat -> vec) (w : wspec) (n : Z) : M obj vec :=
    o <- get ;; lift (init_weights rng w (if (n =? -1)%Z then Z.of_nat (o_n o) else n)).

  (** base_filter.py:14-41 AdaptiveFilter.__init__: for n == -1 the attribute self.n does not exist
      yet *)
  Definition init_base (rng : nat -> vec) (n : Z) (mu : T) (w : wspec) (x : ext) : result obj :=
    if (n =? -1)%Z then Err AttributeError
    else rmap (fun wv => mkObj wv (Z.to_nat n) mu None x) (init_weights rng w n).
End Filters.

Arguments ext T : clear implicits.
Arguments obj T : clear implicits.
Arguments wspec T : clear implicits.
