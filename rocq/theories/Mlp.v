(** Model of padasip/ann/mlp.py: class Layer and class NetworkMLP.
    Objects are records; a method is a state transformer that keeps what was already mutated when an
    exception is raised. *)
From Coq Require Import QArith.
From Verif Require Import Py Num Numpy.
Open Scope nat_scope.

Section Mlp.
  Context {T : Type} {NT : Num T}.
  Notation vec := (list T).
  Notation mat := (list (list T)).

  (** the two values of `activation` that the code knows.  Any other string makes Layer.activation
      return None (mlp.py:137-144); that case is MlpUnknown.v. *)
  Inductive actf : Type := Sigmoid | Tanh.

  (** mlp.py:137-144 Layer.activation with der=False and der=True, on one element *)
  Definition act (f : actf) (x : T) : T :=
    match f with
    | Sigmoid => ndiv n1 (nadd n1 (nexp (nopp x)))
    | Tanh => nsub (ndiv n2 (nadd n1 (nexp (nmul (nopp n2) x)))) n1
    end.
  (* mlp.py:138-139,142-143 *)
  Definition act_der (f : actf) (y : T) : T :=
    match f with
    | Sigmoid => nmul y (nsub n1 y)
    | Tanh => nsub n1 (npown y 2)
    end.

  (** mlp.py:106-116 the attributes of a Layer *)
  Record layer : Type := mkLayer {
    l_mu : T;
    l_n : nat;          (* n_input *)
    l_w : mat;          (* n_layer x (n_input + 1) *)
    l_x : vec;
    l_y : vec;
    l_f : actf
  }.

  (** a scalar or a 1-d array: outputs, targets and errors of the network *)
  (* mlp.py:249,427,429,449 *)
  Inductive val : Type := VNum (a : T) | VArr (v : vec).

  (** 1-d weights (outputs == 1) or 2-d weights *)
  (* mlp.py:182,244-247 *)
  Inductive wts : Type := W1 (w : vec) | W2 (w : mat).

  (** mlp.py:224-259 the attributes of a NetworkMLP.  (`self.outputs == 1` holds exactly when the
      weights were created 1-d, lines 244-247; neither is ever reassigned: branches on self.outputs
      are branches on the constructor of m_w.) *)
  Record net : Type := mkNet {
    m_mu : T;
    m_n : nat;          (* n_input *)
    m_outputs : nat;
    m_w : wts;
    m_x : vec;
    m_y : val;
    m_layers : list layer
  }.

  (** `a[1:] = x` for an array a with n + 1 elements: numpy broadcasts an array of one element *)
  (* mlp.py:160,424 *)
  Definition assign_tail (a : vec) (n : nat) (x : vec) : result vec :=
    if length x =? n then Ok (firstn 1 a ++ x)
    else match x with [b] => Ok (firstn 1 a ++ repeat b n) | _ => Err ValueError end.

  (** np.sum(w * x, axis=1) *)
  (* mlp.py:161,429 *)
  Definition wsum (w : mat) (x : vec) : vec := map (fun r => nsum (map2 nmul r x)) w.

  (** mlp.py:160-162 Layer.predict *)
  Definition layer_predict (x : vec) : M layer vec := fun l =>
    match assign_tail (l_x l) (l_n l) x with
    | Err e => (l, Err e)
    | Ok xs =>
        let y := map (act (l_f l)) (wsum (l_w l) xs) in
        (mkLayer (l_mu l) (l_n l) (l_w l) xs y (l_f l), Ok y)
    end.

  (** scalar or array times / minus ..., with broadcasting *)
  (* mlp.py:183 *)
  Definition mul_val (u : vec) (e : val) : result vec :=
    match e with VNum a => Ok (map (fun t => nmul t a) u) | VArr v => bc_mul u v end.
  (* mlp.py:405,449 *)
  Definition val_sub (d y : val) : result val :=
    match d, y with
    | VNum a, VNum b => Ok (VNum (nsub a b))
    | VNum a, VArr v => Ok (VArr (map (nsub a) v))
    | VArr v, VNum b => Ok (VArr (map (fun a => nsub a b) v))
    | VArr u, VArr v => rmap VArr (bc_sub u v)
    end.
  (** np.outer flattens: a scalar counts as one element *)
  (* mlp.py:184,187,455 *)
  Definition val_list (e : val) : vec := match e with VNum a => [a] | VArr v => v end.

  (** self.w += dw in place: the shape of self.w stays, dw may be broadcast to it *)
  (* mlp.py:457 (one output) *)
  Definition iadd1 (w dw : vec) : result vec :=
    if length dw =? length w then Ok (map2 nadd w dw)
    else match dw with [b] => Ok (map (fun a => nadd a b) w) | _ => Err ValueError end.
  (* mlp.py:189,457 *)
  Definition iadd2 (w dw : mat) : result mat :=
    if length dw =? length w then Ok (map2 (map2 nadd) w dw)
    else match dw with [r] => Ok (map (fun a => map2 nadd a r) w) | _ => Err ValueError end.

  (** np.dot(e, w) for a 1-d e and a 2-d w with c columns *)
  (* mlp.py:186 *)
  Definition vmdot (c : nat) (e : vec) (w : mat) : result vec :=
    if length e =? length w then Ok (map (fun j => ndot e (column j w)) (seq 0 c)) else Err ValueError.

  (** mlp.py:182-186: the error propagated to this layer.  (A scalar e with 2-d weights arises only
      for a scalar target before the first predict; the product then is 2-d and its outer product
      cannot be added to self.w: ValueError either way.) *)
  Definition layer_error (w : wts) (e : val) (l : layer) : result vec :=
    match w with
    | W1 wv => rbind (mul_val (map (act_der (l_f l)) (l_y l)) e) (fun u => bc_mul u wv)
    | W2 wm =>
        match e with
        | VArr ev =>
            rbind (vmdot (length (l_w l)) ev wm) (fun b =>
            bc_mul (map (fun y => nmul (act_der (l_f l) y) (nsub n1 y)) (l_y l)) b)
        | VNum _ => Err ValueError
        end
    end.

  (** mlp.py:182-190 Layer.update.  Line 188 takes a view of self.w, line 189 changes self.w in
      place: the returned weights are the updated ones. *)
  Definition layer_update (w : wts) (e : val) : M layer (wts * val) := fun l =>
    match layer_error w e l with
    | Err x => (l, Err x)
    | Ok el =>
        match iadd2 (l_w l) (mscale (l_mu l) (outer el (l_x l))) with
        | Err x => (l, Err x)
        | Ok w' => (mkLayer (l_mu l) (l_n l) w' (l_x l) (l_y l) (l_f l), Ok (W2 (map (@tl T) w'), VArr el))
        end
    end.

  (** mlp.py:422-423: for l in self.layers: x = l.predict(x) *)
  Fixpoint predict_layers (ls : list layer) (x : vec) : list layer * result vec :=
    match ls with
    | [] => ([], Ok x)
    | l :: ls' =>
        match layer_predict x l with
        | (l', Err e) => (l' :: ls', Err e)
        | (l', Ok y) => let (ls'', r) := predict_layers ls' y in (l' :: ls'', r)
        end
    end.

  (** mlp.py:407-430 NetworkMLP.predict *)
  Definition net_predict (x : vec) : M net val := fun n =>
    match predict_layers (m_layers n) x with
    | (ls, Err e) => (mkNet (m_mu n) (m_n n) (m_outputs n) (m_w n) (m_x n) (m_y n) ls, Err e)
    | (ls, Ok h) =>
        match assign_tail (m_x n) (length (m_x n) - 1) h with
        | Err e => (mkNet (m_mu n) (m_n n) (m_outputs n) (m_w n) (m_x n) (m_y n) ls, Err e)
        | Ok xs =>
            match (match m_w n with
                   | W1 w => rmap VNum (vdot w xs)
                   | W2 w => Ok (VArr (wsum w xs))
                   end) with
            | Err e => (mkNet (m_mu n) (m_n n) (m_outputs n) (m_w n) xs (m_y n) ls, Err e)
            | Ok y => (mkNet (m_mu n) (m_n n) (m_outputs n) (m_w n) xs y ls, Ok y)
            end
        end
    end.

  (** mlp.py:459-460: for l in reversed(self.layers): w, e = l.update(w, e) *)
  Fixpoint update_layers (ls : list layer) (w : wts) (e : val) : list layer * result (wts * val) :=
    match ls with
    | [] => ([], Ok (w, e))
    | l :: ls' =>
        match update_layers ls' w e with
        | (ls'', Err x) => (l :: ls'', Err x)
        | (ls'', Ok (w', e')) => let (l', r) := layer_update w' e' l in (l' :: ls'', r)
        end
    end.

  (** mlp.py:451-457: the new output weights, and the copy of the old ones without the bias *)
  Definition out_step (mu : T) (e : val) (x : vec) (w : wts) : result (wts * wts) :=
    match w with
    | W1 wv =>
        rbind (match e with
               | VNum a => Ok (map (nmul (nmul mu a)) x)
               | VArr v => bc_mul (vscale mu v) x
               end) (fun dw =>
        rmap (fun w' => (W1 w', W1 (tl wv))) (iadd1 wv dw))
    | W2 wm =>
        rmap (fun w' => (W2 w', W2 (map (@tl T) wm))) (iadd2 wm (mscale mu (outer (val_list e) x)))
    end.

  (** mlp.py:432-461 NetworkMLP.update *)
  Definition net_update (d : val) : M net val := fun n =>
    match val_sub d (m_y n) with
    | Err x => (n, Err x)
    | Ok e =>
        match out_step (m_mu n) e (m_x n) (m_w n) with
        | Err x => (n, Err x)
        | Ok (w', wold) =>
            let (ls, r) := update_layers (m_layers n) wold e in
            (mkNet (m_mu n) (m_n n) (m_outputs n) w' (m_x n) (m_y n) ls, rmap (fun _ => e) r)
        end
    end.

  (** the argument d of train and test: a Python list (no attribute shape), a 1-d or a 2-d array
      with c columns *)
  (* mlp.py:295-304,382-391 *)
  Inductive darg : Type := DList (v : vec) | D1 (v : vec) | D2 (c : nat) (rows : mat).
  (* mlp.py:295-304,382-391 *)
  Definition dlen (d : darg) : nat :=
    match d with DList v => length v | D1 v => length v | D2 _ rows => length rows end.

  (** mlp.py:294-304 and 381-391: the checks; gives the list of targets *)
  Definition check_data (x : mat) (d : darg) (n : net) : result (list val) :=
    if negb (dlen d =? length x) then Err ValueError
    else match x with
         | [] => Err IndexError                              (* x[0] *)
         | r0 :: _ =>
             if negb (length r0 =? m_n n) then Err ValueError
             else match d with
                  | DList _ => Err AttributeError            (* d.shape *)
                  | D1 v =>
                      match m_w n with
                      | W1 _ => Ok (map VNum v)
                      | W2 _ => Err IndexError               (* d.shape[1] *)
                      end
                  | D2 c rows =>
                      match m_w n with
                      | W1 _ => Err ValueError
                      | W2 _ => if c =? m_outputs n then Ok (map VArr rows) else Err ValueError
                      end
                  end
         end.

  (** mlp.py:324-326: one pass over the data *)
  Fixpoint epoch_loop (data : list (vec * val)) : M net (list val) :=
    match data with
    | [] => ret []
    | (x, d) :: rest =>
        bind (net_predict x) (fun _ =>
        bind (net_update d) (fun e =>
        bind (epoch_loop rest) (fun es => ret (e :: es))))
    end.

  (** mlp.py:327: np.sum(e[epoch*N:(epoch+1)*N-1]**2) / N  (np.sum of a 2-d array sums all entries) *)
  Definition epoch_mse (e : list val) (epoch N : nat) : T :=
    ndiv (nsum (map (fun a => npown a 2) (concat (map val_list (slice e (epoch * N) ((epoch + 1) * N - 1))))))
         (nofnat N).

  (** mlp.py:323-327; e holds the errors of the epochs done so far *)
  Fixpoint epochs_loop (k epoch : nat) (data : list (vec * val)) (e : list val) (mse : vec) : M net (list val * vec) :=
    match k with
    | O => ret (e, mse)
    | S k' =>
        bind (epoch_loop data) (fun es =>
        let e' := e ++ es in
        epochs_loop k' (S epoch) data e' (mse ++ [epoch_mse e' epoch (length data)]))
    end.

  (** x[randomize] *)
  (* mlp.py:320-321 *)
  Definition take {A} (idx : list nat) (l : list A) (dflt : A) : list A := map (fun i => nth i l dflt) idx.

  (** mlp.py:261-328 NetworkMLP.train; shuffle: None, or the order drawn by np.random.shuffle *)
  Definition net_train (x : mat) (d : darg) (epochs : nat) (shuffle : option (list nat)) : M net (list val * vec) :=
    fun n =>
    match check_data x d n with
    | Err e => (n, Err e)
    | Ok ds =>
        let data := combine x ds in
        let data := match shuffle with
                    | None => data
                    | Some idx => combine (take idx x []) (take idx ds (VNum n0))
                    end in
        epochs_loop epochs 0 data [] [] n
    end.

  (** mlp.py:330-359 NetworkMLP.run *)
  Fixpoint net_run (x : mat) : M net (list val) :=
    match x with
    | [] => ret []
    | r :: x' => bind (net_predict r) (fun y => bind (net_run x') (fun ys => ret (y :: ys)))
    end.

  (** mlp.py:361-405 NetworkMLP.test *)
  Definition net_test (x : mat) (d : darg) : M net (list val) := fun n =>
    match check_data x d n with
    | Err e => (n, Err e)
    | Ok ds => bind (net_run x) (fun ys => lift (sequence (map2 val_sub ds ys))) n
    end.

  (** the argument mu: the string "auto", a number, something that float() rejects.  (A numeric
      string passes the check of line 235 and is stored as a string; not modelled.) *)
  (* mlp.py:108-111,231-240 *)
  Inductive muarg : Type := MuAuto | MuNum (a : T) | MuBad.

  (** n ** (-0.5) for a Python int *)
  (* mlp.py:107,229 *)
  Definition inv_sqrt (n : nat) : result T :=
    if n =? 0 then Err ZeroDivisionError else Ok (npow (nofnat n) (nofQ (-1 # 2))).

  (** mlp.py:106-116 Layer.__init__; rng sigma r c: np.random.normal(0, sigma, (r, c)) *)
  Definition new_layer (rng : T -> nat -> nat -> mat) (n_layer n_input : nat) (f : actf) (mu : muarg) : result layer :=
    rbind (inv_sqrt n_input) (fun sigma =>
    let m := match mu with MuNum a => a | _ => sigma end in
    Ok (mkLayer m n_input (rng sigma n_layer (n_input + 1)) (ones (n_input + 1)) (zeros (n_input + 1)) f)).

  (** mlp.py:253-259; layer number i draws from rng i *)
  Fixpoint new_layers (rng : nat -> T -> nat -> nat -> mat) (i : nat) (sizes : list nat) (n_input : nat) (f : actf) (mu : muarg)
    : result (list layer) :=
    match sizes with
    | [] => Ok []
    | s :: sizes' =>
        rbind (new_layer (rng i) s n_input f mu) (fun l =>
        rmap (cons l) (new_layers rng (S i) sizes' s f mu))
    end.

  (** mlp.py:224-259 NetworkMLP.__init__; rng1 sigma k: np.random.normal(0, sigma, k) *)
  Definition new_net (rng1 : T -> nat -> vec) (rng : nat -> T -> nat -> nat -> mat)
      (sizes : list nat) (n_input outputs : nat) (f : actf) (mu : muarg) : result net :=
    match rev sizes with
    | [] => Err IndexError                                   (* layers[-1] *)
    | last :: _ =>
        rbind (inv_sqrt last) (fun sigma =>
        rbind (match mu with MuAuto => Ok sigma | MuNum a => Ok a | MuBad => Err ValueError end) (fun m =>
        let w := if outputs =? 1 then W1 (rng1 sigma (last + 1)) else W2 (rng 0 sigma outputs (last + 1)) in
        rmap (fun ls => mkNet m n_input outputs w (ones (last + 1)) (VNum n0) ls)
             (new_layers rng 1 sizes n_input f mu)))
    end.
End Mlp.
Arguments layer T : clear implicits.
Arguments net T : clear implicits.
Arguments val T : clear implicits.
Arguments wts T : clear implicits.
Arguments darg T : clear implicits.
Arguments muarg T : clear implicits.
