(** Integer arrays.  The filters convert nothing: run does x = np.array(x), d = np.array(d) (base_filter.py:197-198), adapt not
    even that, so an integer array stays an integer array of its own width, and products of such arrays with each other (np.dot,
    np.outer, the product in rls.py:183) are computed modulo 2^bits.  A product with a float64 array or a float (the weights, the
    errors, the learning rate) is a float64 product.  The functions of misc/error_evaluation.py subtract, square and add integer
    arrays in the same way.
    The model: the function [wr] is applied to every result that the code computes from integer arrays alone; it maps the
    exact result to the one that the integer type can hold.  With wr = identity the definitions are those of Filters.v and Misc.v
    (theorems C104_float_arrays, C105_float_arrays).
    Simplified: every input array given to one filter has the same integer type; mu, eps, ro etc. are floats; numbers of 64 bits are
    converted to float64 exactly. *)
From Coq Require Import Reals.
From Verif Require Import Py Num Numpy Filters Misc.
Open Scope nat_scope.

(** ** The integer types of numpy: int8 ... int64, uint8 ... uint64 *)
(* numpy, no lines of /repo *)
Record itype : Type := mkI { bits : Z; signed : bool }.
(** the value that an integer type can hold, equal to z modulo 2^bits (numpy, no lines of /repo) *)
Definition wrapZ (t : itype) (z : Z) : Z :=
  if signed t then ((z + 2 ^ (bits t - 1)) mod 2 ^ bits t - 2 ^ (bits t - 1))%Z else (z mod 2 ^ bits t)%Z.
(** the same on integers embedded in the reals *)
(* numpy, no lines of /repo *)
Definition wrapR (t : itype) (r : R) : R := IZR (wrapZ t (Int_part r)).

Section Filters.
  Context {T : Type} {NT : Num T}.
  Notation vec := (list T).
  Notation mat := (list (list T)).
  Notation obj := (obj T).
  Open Scope py_scope.
  Variable wr : T -> T.

  (** learning_rule(e, x) with an integer array x, where the arrays remembered from earlier samples are integer arrays too (before the
      first sample they are float64 zeros, whose products are 0).  Classes in which no two input arrays are multiplied with each other:
      as in Filters.v. *)
  (* the file and lines of each class stand at its case *)
  Definition learning_rule_int (e : T) (x : vec) : M obj vec :=
    o <- get ;;
    let mu := o_mu o in
    match o_ext o with
    (* nlms.py:160-164  np.dot(x, x) *)
    | XNLMS eps =>
        let c := ndiv mu (nadd eps (wr (ndot x x))) in
        ret (map (fun xi => nmul (nmul c xi) e) x)
    (* nlmf.py:95-99  np.dot(x, x) *)
    | XNLMF eps =>
        let c := ndiv mu (nadd eps (wr (ndot x x))) in
        ret (map (fun xi => nmul (nmul c xi) (npown e 3)) x)
    (* nsslms.py:96-100  np.dot(x, x) *)
    | XNSSLMS eps =>
        let c := ndiv mu (nadd eps (wr (ndot x x))) in
        ret (map (fun xi => nmul (nmul c (nsign xi)) (nsign e)) x)
    (* gngd.py:85-94  np.dot(x, self.last_x), np.dot(self.last_x, self.last_x), np.dot(x, x) *)
    | XGNGD eps ro last_e last_x =>
        dxl <- lift (vdot x last_x) ;;
        let eps' := nsub eps
              (ndiv (nmul (nmul (nmul (nmul ro mu) e) last_e) (wr dxl))
                    (npown (nadd (wr (ndot last_x last_x)) eps) 2)) in
        let nu := ndiv mu (nadd eps' (wr (ndot x x))) in
        modify (set_ext (XGNGD eps' ro e x)) ;;;
        ret (vscale (nmul nu e) x)
    (* rls.py:179-186  x[:, None] * x[None, :] *)
    | XRLS eps R =>
        let k := length x in
        if (length R =? k) && rect k R then
          let R1 := mm k (mm k R (map (map wr) (outer x x))) R in
          let R2 := nadd mu (ndot (map (fun c => ndot x c) (transpose k R)) x) in
          if neqb mu n0 then raise ZeroDivisionError
          else
            let R' := mscale (ndiv n1 mu)
                        (map2 (map2 (fun r r1 => nsub r (ndiv r1 R2))) R R1) in
            modify (set_ext (XRLS eps R')) ;;;
            ret (map (fun a => nmul a e) (mv R' x))
        else raise ValueError
    (* vslms_benveniste.py:92-100  np.outer(self.last_x, self.last_x) *)
    | XBenveniste ro last_e last_x last_fi last_mu =>
        fi_part <- lift (bc_sub2 (identity (o_n o)) (mscale last_mu (map (map wr) (outer last_x last_x)))) ;;
        fi0 <- lift (sqdot fi_part last_fi) ;;
        fi <- lift (bc_add fi0 (vscale last_e last_x)) ;;
        lf <- lift (vdot last_x fi) ;;
        let mu' := nadd last_mu (nmul (nmul ro e) lf) in
        modify (set_ext (XBenveniste ro e x fi mu')) ;;;
        ret (vscale (nmul mu' e) x)
    (* vslms_mathews.py:91-97  np.dot(self.last_x, x) *)
    | XMathews ro last_e last_x last_mu =>
        lx <- lift (vdot last_x x) ;;
        let mu' := nadd last_mu (nmul (nmul (nmul ro e) last_e) (wr lx)) in
        modify (set_ext (XMathews ro e x mu')) ;;;
        ret (vscale (nmul mu' e) x)
    (* lms.py:160-164, lmf.py:95-99, sslms.py:99-103, gmcc.py:78-84, llncosh.py:90-94, vslms_ang.py:96-103, ocnlms.py:97-105, base_filter.py:43-57 *)
    | _ => learning_rule e x
    end.

  (** base_filter.py:154-166 adapt, with integer inputs; AP (base_filter.py:255-277) copies its inputs into float64 arrays *)
  Definition adapt_int (d : T) (x : vec) : M obj unit :=
    o <- get ;;
    if is_AP o then adapt_AP d x
    else y <- predict x ;;
         let e := nsub d y in
         dw <- learning_rule_int e x ;;
         iadd_w dw.

  (** base_filter.py:206-210, body of the loop in run *)
  Definition run_body_int (k : nat) (d : T) (x : vec) : M obj (T * T) :=
    o <- get ;;
    if is_AP o then run_body_AP k d x
    else hist_set k ;;;
         y <- predict x ;;
         let e := nsub d y in
         dw <- learning_rule_int e x ;;
         iadd_w dw ;;;
         ret (y, e).

  (* base_filter.py:206-210 and 318-331 *)
  Fixpoint run_loop_int (k : nat) (ds : vec) (xs : mat) : M obj (vec * vec) :=
    match ds, xs with
    | d :: ds', x :: xs' =>
        '(y, e) <- run_body_int k d x ;;
        '(ys, es) <- run_loop_int (S k) ds' xs' ;;
        ret (y :: ys, e :: es)
    | _, _ => ret ([], [])
    end.

  (** base_filter.py:168-211 and 279-332 run, with integer inputs *)
  Definition run_int (d : vec) (x : mat) : M obj (vec * vec * mat) :=
    let N := length x in
    if negb (length d =? N) then raise ValueError
    else
      match x with
      | [] => raise IndexError
      | x0 :: _ =>
          modify (set_n (length x0)) ;;;
          if negb (rect (length x0) x) then raise ValueError
          else
            modify (set_hist (zeros2 N (length x0))) ;;;
            '(y, e) <- run_loop_int 0 d x ;;
            o <- get ;;
            match o_hist o with
            | Some h => ret (y, e, h)
            | None => raise TypeError
            end
      end.
End Filters.

Section Measures.
  Context {T : Type} {NT : Num T}.
  Notation vec := (list T).
  Variables wr wrs : T -> T.      (* results of the type of the series, and of np.sum, which adds in 64 bits *)

  (** error_evaluation.py:99-125 get_valid_error of integer series *)
  Definition get_valid_error_int (x1 : vec) (x2 : arg2 T) : result vec :=
    match x2 with
    | AInt z => if (z =? -1)%Z then Ok x1 else Err TypeError
    | AScalar _ => Err TypeError
    | ASeries x2 =>
        if length x1 =? length x2 then Ok (map2 (fun a b => wr (nsub a b)) x1 x2) else Err ValueError
    end.
  (** error_evaluation.py:130-150 logSE of integer series: e**2 of the same type; np.log10 of a negative number is nan, which has no
      counterpart in the reals, and its result is float16 or float32 for the narrow types *)
  Definition logSE_int (x1 : vec) (x2 : arg2 T) : result vec :=
    rmap (map (fun e => nmul (nofZ 10) (nlog10 (wr (npown e 2))))) (get_valid_error_int x1 x2).
  (** error_evaluation.py:152-173 MAE of integer series: np.abs of the same type, np.sum in 64 bits, the division in float64 *)
  Definition MAE_int (x1 : vec) (x2 : arg2 T) : result T :=
    rmap (fun e => ndiv (wrs (nsum (map (fun a => wr (nabs a)) e))) (nofnat (length e))) (get_valid_error_int x1 x2).
  (** error_evaluation.py:175-196 MSE of integer series: np.dot of the same type, the division in float64 *)
  Definition MSE_int (x1 : vec) (x2 : arg2 T) : result T :=
    rmap (fun e => ndiv (wr (ndot e e)) (nofnat (length e))) (get_valid_error_int x1 x2).
  (** error_evaluation.py:198-219 RMSE of integer series; np.sqrt of a negative number is nan, which has no counterpart in the reals *)
  Definition RMSE_int (x1 : vec) (x2 : arg2 T) : result T :=
    rmap (fun e => nsqrt (ndiv (wr (ndot e e)) (nofnat (length e)))) (get_valid_error_int x1 x2).
End Measures.
