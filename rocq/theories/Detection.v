(** Model of padasip/detection: learning_entropy (le.py), ELBND (elbnd.py), pot and ESE (ese.py). *)
From Coq Require Import QArith.
From Verif Require Import Py Num Numpy.
Open Scope nat_scope.

Section Detection.
  Context {T : Type} {NT : Num T}.
  Notation vec := (list T).
  Notation mat := (list (list T)).

  (** np.diff(A, axis=0) and np.diff(A, n=order, axis=0) for a non-negative order: numpy applies the
      first difference [order] times; rows of A have equal length *)
  (* le.py:167; elbnd.py:118; ese.py:126 *)
  Definition diff1 (A : mat) : mat := map2 (map2 nsub) (tl A) A.
  (* le.py:167; elbnd.py:118; ese.py:126 *)
  Fixpoint diffn (order : nat) (A : mat) : mat :=
    match order with O => A | S o => diff1 (diffn o A) end.

  (** np.abs of a 2-d array *)
  (* le.py:167; elbnd.py:118; ese.py:126 *)
  Definition mabs (A : mat) : mat := map (map nabs) A.

  (** ** le.py *)
  (** the argument alpha: False (default), another scalar, a list, a numpy array *)
  (* le.py:138,170,184 *)
  Inductive alpha_arg : Type := AlphaFalse | AlphaScalar (a : T) | AlphaList (l : vec) | AlphaArray (l : vec).
  (** the truth value computed by `not alpha` (le.py:170); for an array with several elements Python
      raises ValueError.  (Of an empty array it is False with a warning in the numpy versions the
      project supports.) *)
  Definition not_alpha (a : alpha_arg) : result bool :=
    match a with
    | AlphaFalse => Ok true
    | AlphaScalar a => Ok (neqb a n0)
    | AlphaList l => Ok (length l =? 0)
    | AlphaArray [] => Ok true
    | AlphaArray [a] => Ok (neqb a n0)
    | AlphaArray _ => Err ValueError
    end.

  (** the two shapes of the result: a N x n array or a 1-d array *)
  (* le.py:178,188,192 *)
  Inductive le_out : Type := LeMatrix (A : mat) | LeSeries (v : vec).

  (** le.py:162-167: dw = np.copy(w); dw[order:] = np.abs(np.diff(dw, n=order, axis=0)) *)
  Definition le_dw (order : nat) (w : mat) : mat := firstn order w ++ mabs (diffn order w).

  (** le.py:169,173-175,181-182: row k of awd and of swd (rows before m stay zero) *)
  Definition le_window (m : nat) (dw : mat) (k : nat) : mat := slice dw (k - m) k.
  (* le.py:169,173-174,181-182 *)
  Definition le_awd (c m : nat) (dw : mat) (k : nat) : vec :=
    if k <? m then zeros c else mean0 c (le_window m dw k).
  (* le.py:172-175 *)
  Definition le_swd (c m : nat) (dw : mat) (k : nat) : vec :=
    if k <? m then zeros c else std0 c (le_window m dw k).

  (** le.py:170-178 and 190: le = (dw - awd) / (swd + eps), le[:m] = 0 *)
  Definition le_direct (c m : nat) (dw : mat) : mat :=
    let eps := nofQ (1 # 10000000000) in
    map (fun k =>
           if k <? m then zeros c
           else map2 (fun a s => ndiv a (nadd s eps)) (map2 nsub (nth k dw []) (le_awd c m dw k)) (le_swd c m dw k))
        (seq 0 (length dw)).

  (** np.sum of a boolean array: the number of True *)
  (* le.py:187 *)
  Fixpoint count_true (l : list bool) : nat :=
    match l with [] => 0 | b :: l' => (if b then 1 else 0) + count_true l' end.

  (** le.py:180-190; fh is accumulated sensitivity by sensitivity *)
  Definition le_multiscale (c m : nat) (dw : mat) (alphas : vec) : vec :=
    map (fun k =>
           if k <? m then n0
           else
             let awd := le_awd c m dw k in
             let row := nth k dw [] in
             let fh := fold_left (fun s alpha =>
                         nadd s (nofnat (count_true (map2 (fun a d => nltb (nmul a alpha) d) awd row)))) alphas n0 in
             ndiv fh (nofnat (c * length alphas)))
        (seq 0 (length dw)).

  (** le.py:138-192 learning_entropy; w has rows of length c; m is a non-negative int.
      A scalar alpha is a 0-d array, which can not be iterated (line 186): TypeError. *)
  Definition learning_entropy (c : nat) (w : mat) (m : nat) (order : Z) (alpha : alpha_arg) : result le_out :=
    if (order <? 0)%Z then Err ValueError        (* np.diff *)
    else
      let dw := le_dw (Z.to_nat order) w in
      match not_alpha alpha with
      | Err x => Err x
      | Ok true => Ok (LeMatrix (le_direct c m dw))
      | Ok false =>
          match alpha with
          | AlphaList l | AlphaArray l => Ok (LeSeries (le_multiscale c m dw l))
          | _ => Err TypeError
          end
      end.

  (** ** elbnd.py:87-127 ELBND; w has rows of length c *)
  Definition elbnd_dw (c : nat) (w : mat) : mat :=
    (* np.zeros(w.shape) with dw[:-1] = np.abs(np.diff(w, axis=0)) *)
    mabs (diff1 w) ++ (match w with [] => [] | _ => [zeros c] end).
  (* elbnd.py:123 *)
  Definition row_max (r : vec) : result T :=
    match r with [] => Err ValueError | a :: l => Ok (vmax a l) end.
  (* elbnd.py:87-127 *)
  Definition ELBND (c : nat) (w : mat) (e : vec) (function : string) : result vec :=
    if negb (String.eqb function "max" || String.eqb function "sum") then Err ValueError
    else
      (* np.abs((dw.T*e).T) *)
      rbind (bc (fun row ek => map (fun a => nabs (nmul a ek)) row) (elbnd_dw c w) e) (fun elbnd =>
      if String.eqb function "max" then sequence (map row_max elbnd)
      else Ok (map nsum elbnd)).

  (** ** ese.py *)
  (** np.sort, and genpareto.fit(data, floc=[t]) / genpareto.cdf(x, c, loc, scale) of scipy are
      parameters; fit may raise *)
  Variable sort : vec -> vec.
  Variable fit : vec -> T -> result (T * T * T).
  Variable cdf : T -> T -> T -> T -> T.

  (** ese.py:89-100: the number k of values, for data of length n.  int(inf) and int(-inf) raise
      OverflowError, int(nan) ValueError: the infinities and nan come from log10 at n = 0, 1, 10. *)
  Definition pot_count (n : nat) (method : string) : result Z :=
    let N := nofnat n in
    if String.eqb method "10%" then Ok (Z.max (ntrunc (nmul (nofQ (1 # 10)) N)) 1)
    else if String.eqb method "sqrt" then Ok (Z.max (ntrunc (nsqrt N)) 1)
    else if String.eqb method "log10log10" then
      if n =? 0 then Err ValueError                       (* log10(log10(0)) is nan *)
      else if n =? 1 then Ok 1%Z                          (* 1 / -inf *)
      else if neqb (nlog10 (nlog10 N)) n0 then Err OverflowError   (* n = 10: x / 0 is inf *)
      else Ok (Z.max (ntrunc (ndiv (npow N (ndiv n2 (nofZ 3))) (nlog10 (nlog10 N)))) 1)
    else if String.eqb method "log10" then
      if n =? 0 then Err OverflowError else Ok (Z.max (ntrunc (nlog10 N)) 1)
    else if String.eqb method "35%" then Ok (Z.max (ntrunc (nmul (nofQ (35 # 100)) N)) 1)
    else Ok 0%Z.

  (** ese.py:81-101 pot: -np.sort(-data) cut after k values *)
  Definition pot (data : vec) (method : string) : result vec :=
    rmap (fun k => slice_to (map nopp (sort (map nopp data))) k) (pot_count (length data) method).

  (** ese.py:124-126 *)
  Definition ese_dw (w : mat) : mat := firstn 1 w ++ mabs (diff1 w).

  (** ese.py:134-138: the cell hpp[i - window, j]; `poted_values[-1]` of an empty array: IndexError *)
  Definition ese_cell (col : vec) (window i : nat) (method : string) : result T :=
    let v := nth i col n0 in
    rbind (pot (slice col (i - window) i) method) (fun poted =>
    match rev poted with
    | [] => Err IndexError
    | last :: _ =>
        if nltb last v then
          rbind (fit poted last) (fun '(c, loc, scale) =>
          if nleb loc v then Ok (nadd (nsub n1 (cdf v c loc scale)) (nofQ (1 # 100000000000000000000)))
          else Ok n1)
        else Ok n1
    end).

  (** ese.py:103-141 ESE; np.ones with a negative dimension raises ValueError.  (np.prod multiplies
      left to right here.) *)
  Definition ESE (c : nat) (w : mat) (window : nat) (method : string) : result vec :=
    let dw := ese_dw w in
    let N := length dw in
    if N <? window then Err ValueError
    else
      let rows := map (fun i => sequence (map (fun j => ese_cell (column j dw) window i method) (seq 0 c)))
                      (seq window (N - window)) in
      rmap (fun hpp => zeros window ++ map (fun r => nopp (nlog10 (fold_left nmul r n1))) hpp) (sequence rows).
End Detection.
Arguments alpha_arg T : clear implicits.
Arguments le_out T : clear implicits.
