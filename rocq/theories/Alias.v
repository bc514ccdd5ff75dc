(** Array identity.  In Filters.v a filter object holds values; in Python it holds references to numpy arrays.
    Three kinds of arrays can be seen from outside the object:
    - the weights self.w: created by init_weights (base_filter.py:59-99, always a new array: np.array copies the
      caller's vector), afterwards only changed in place by [self.w += ...] (base_filter.py:166,210,277,331);
    - the history self.w_history: a new array in every run (base_filter.py:204,316), returned to the caller;
    - the input vector x of adapt: gngd.py:93, vslms_ang.py:102, vslms_benveniste.py:99 and vslms_mathews.py:96
      store the reference itself in self.last_x.  All other classes copy its values (OCNLMS: assignment into
      mem_x, ocnlms.py:143; AP: assignment into x_mem, base_filter.py:267) or do not keep it.
      In run the rows x[k] are views of np.array(x) (base_filter.py:197), a private copy.
    All other attributes are scalars or arrays that never leave the object.  The heap model below makes these
    references explicit and reuses the computations of Filters.v on the dereferenced values; this is exact because
    in adapt all reads happen before the only write ([self.w += ...]).  Caller arrays are float arrays. *)
From Coq Require Import QArith.
From Verif Require Import Py Num Numpy Filters.
Open Scope nat_scope.

Section Alias.
  Context {T : Type} {NT : Num T}.
  Notation vec := (list T).
  Notation mat := (list (list T)).
  Notation obj := (obj T).

  (** the arrays in memory: 1-d arrays and history arrays, addressed by position *)
  (* references held by self: base_filter.py:38,40; gngd.py:83,93; vslms_ang.py:92,102 *)
  Record heap : Type := mkHeap { hv : list vec; hm : list mat }.

  (** a filter object with references: [ho] its scalars and private arrays, [ho_w] the address of self.w, [ho_hist]
      of self.w_history, [ho_last] of self.last_x when it is an array of the caller ([None]: last_x is private) *)
  (* references held by self: base_filter.py:38,40; gngd.py:83,93; vslms_ang.py:92,102 *)
  Record hobj : Type := mkHobj { ho : obj; ho_w : nat; ho_hist : option nat; ho_last : option nat }.
  (* references held by self: base_filter.py:38,40; gngd.py:83,93; vslms_ang.py:92,102 *)
  Definition hstate : Type := (heap * hobj)%type.

  (** the classes that keep a reference to x: gngd.py:93, vslms_ang.py:102, vslms_benveniste.py:99,
      vslms_mathews.py:96 *)
  Definition retains (e : ext T) : bool :=
    match e with XGNGD _ _ _ _ | XAng _ _ _ _ _ _ | XBenveniste _ _ _ _ _ | XMathews _ _ _ _ => true | _ => false end.
  (* gngd.py:93; vslms_ang.py:102; vslms_benveniste.py:99; vslms_mathews.py:96 *)
  Definition set_last_x (v : vec) (e : ext T) : ext T :=
    match e with
    | XGNGD eps ro le _ => XGNGD eps ro le v
    | XAng ro a le _ lf lm => XAng ro a le v lf lm
    | XBenveniste ro le _ lf lm => XBenveniste ro le v lf lm
    | XMathews ro le _ lm => XMathews ro le v lm
    | e => e
    end.

  (** the object as its methods see it: every attribute dereferenced *)
  (* base_filter.py:166,210,277,331 *)
  Definition load (s : hstate) : obj :=
    let '(h, f) := s in
    mkObj (nth (ho_w f) (hv h) []) (o_n (ho f)) (o_mu (ho f)) (option_map (fun a => nth a (hm h) []) (ho_hist f))
      (match ho_last f with Some a => set_last_x (nth a (hv h) []) (o_ext (ho f)) | None => o_ext (ho f) end).

  (** the effects of a method that leaves the attribute values o': the weights are written in place *)
  (* base_filter.py:166,210,277,331 *)
  Definition store (o' : obj) (last : option nat) (s : hstate) : hstate :=
    let '(h, f) := s in
    (mkHeap (set_nth (ho_w f) (o_w o') (hv h)) (hm h), mkHobj o' (ho_w f) (ho_hist f) last).

  (** f.predict(x), x the array at address a *)
  (* base_filter.py:101-114 *)
  Definition predict_h (a : nat) (s : hstate) : hstate * result T :=
    let '(o', r) := predict (nth a (hv (fst s)) []) (load s) in (store o' (ho_last (snd s)) s, r).

  (** f.adapt(d, x), x the array at address a.  The assignment to last_x is reached unless an exception was raised
      before (the only later statement, [self.w += dw], cannot fail after np.dot(self.w, x) succeeded) *)
  (* base_filter.py:154-166,255-277 *)
  Definition adapt_h (d : T) (a : nat) (s : hstate) : hstate * result unit :=
    let '(o', r) := adapt d (nth a (hv (fst s)) []) (load s) in
    (store o' (match r with Ok _ => if retains (o_ext o') then Some a else ho_last (snd s) | Err _ => ho_last (snd s) end) s, r).

  (** f.run(d, x) on arrays with the values d, x; the history is a new array (unless an exception is raised before
      its creation), the third component of the result is that array.  After a successful run last_x is a row of the
      private copy of x. *)
  (* base_filter.py:168-211,279-332 *)
  Definition run_h (d : vec) (x : mat) (s : hstate) : hstate * result (vec * vec * nat) :=
    let '(o', r) := run d x (load s) in
    let '(h1, f1) := store o' (match r with Ok _ => None | Err _ => ho_last (snd s) end) s in
    match x with
    | x0 :: _ =>
        if (length d =? length x) && rect (length x0) x then
          let a := length (hm h1) in
          ((mkHeap (hv h1) (hm h1 ++ [match o_hist o' with Some w => w | None => [] end]),
            mkHobj (ho f1) (ho_w f1) (Some a) (ho_last f1)),
           rmap (fun '(y, e, _) => (y, e, a)) r)
        else ((h1, f1), rmap (fun '(y, e, _) => (y, e, 0)) r)
    | [] => ((h1, f1), rmap (fun '(y, e, _) => (y, e, 0)) r)
    end.

  (** a constructed filter: its weights are the array at address 0, the history (if any) history array 0 *)
  (* base_filter.py:38-41 *)
  Definition alloc (o : obj) : hstate :=
    (mkHeap [o_w o] (match o_hist o with Some w => [w] | None => [] end),
     mkHobj o 0 (match o_hist o with Some _ => Some 0 | None => None end) None).
End Alias.
