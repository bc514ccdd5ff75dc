(** Model of padasip/ann/mlp.py for a network whose `activation` argument is neither "sigmoid" nor "tanh" (say, "relu" or
    a misspelt name).  The constructor never looks at the string (mlp.py:106-116,224-259), so [new_net] of Mlp.v is its model;
    the activation stored in the layers by [new_net] is not used here.  Layer.activation falls through its two tests and
    returns None (mlp.py:137-144). *)
From Coq Require Import QArith.
From Verif Require Import Py Num Numpy Mlp.
Open Scope nat_scope.

Section MlpUnknown.
  Context {T : Type} {NT : Num T}.
  Notation vec := (list T).
  Notation mat := (list (list T)).
  Notation net := (net T).
  Notation layer := (layer T).
  Notation val := (val T).
  (** nan: what numpy stores in a float array for None *)
  Variable nan : T.

  (** `a[1:] = x` where x is an array or None (every entry becomes nan) *)
  (* mlp.py:160,424 *)
  Definition assign_tail_u (a : vec) (n : nat) (x : option vec) : result vec :=
    match x with Some v => assign_tail a n v | None => Ok (firstn 1 a ++ repeat nan n) end.

  (** mlp.py:160-162 Layer.predict: self.y becomes None (kept as [] in l_y, which nothing reads here) and None is returned *)
  Definition layer_predict_u (x : option vec) : M layer (option vec) := fun l =>
    match assign_tail_u (l_x l) (l_n l) x with
    | Err e => (l, Err e)
    | Ok xs => (mkLayer (l_mu l) (l_n l) (l_w l) xs [] (l_f l), Ok None)
    end.
  (* mlp.py:422-423 *)
  Fixpoint predict_layers_u (ls : list layer) (x : option vec) : list layer * result (option vec) :=
    match ls with
    | [] => ([], Ok x)
    | l :: ls' =>
        match layer_predict_u x l with
        | (l', Err e) => (l' :: ls', Err e)
        | (l', Ok y) => let (ls'', r) := predict_layers_u ls' y in (l' :: ls'', r)
        end
    end.
  (** mlp.py:407-430 NetworkMLP.predict *)
  Definition net_predict_u (x : vec) : M net val := fun n =>
    match predict_layers_u (m_layers n) (Some x) with
    | (ls, Err e) => (mkNet (m_mu n) (m_n n) (m_outputs n) (m_w n) (m_x n) (m_y n) ls, Err e)
    | (ls, Ok h) =>
        match assign_tail_u (m_x n) (length (m_x n) - 1) h with
        | Err e => (mkNet (m_mu n) (m_n n) (m_outputs n) (m_w n) (m_x n) (m_y n) ls, Err e)
        | Ok xs =>
            match (match m_w n with
                   | W1 w => rmap VNum (vdot w xs)
                   | W2 w => Ok (VArr (wsum w xs))
                   end) with
            | Err e => (mkNet (m_mu n) (m_n n) (m_outputs n) (m_w n) xs (m_y n) ls, Err e)
            | Ok y => (mkNet (m_mu n) (m_n n) (m_outputs n) (m_w n) xs y ls, Ok y)
            end
        end
    end.

  (** mlp.py:182-190 Layer.update: the derivative is None, and None times a number or an array (or 1 - None, line 186) is a
      TypeError, before anything is assigned *)
  Definition layer_update_u (w : wts T) (e : val) : M layer (wts T * val) := fun l => (l, Err TypeError).
  (* mlp.py:459-460: for l in reversed(self.layers) *)
  Fixpoint update_layers_u (ls : list layer) (w : wts T) (e : val) : list layer * result (wts T * val) :=
    match ls with
    | [] => ([], Ok (w, e))
    | l :: ls' =>
        match update_layers_u ls' w e with
        | (ls'', Err x) => (l :: ls'', Err x)
        | (ls'', Ok (w', e')) => let (l', r) := layer_update_u w' e' l in (l' :: ls'', r)
        end
    end.
  (** mlp.py:432-461 NetworkMLP.update: line 457 has already changed the output weights *)
  Definition net_update_u (d : val) : M net val := fun n =>
    match val_sub d (m_y n) with
    | Err x => (n, Err x)
    | Ok e =>
        match out_step (m_mu n) e (m_x n) (m_w n) with
        | Err x => (n, Err x)
        | Ok (w', wold) =>
            let (ls, r) := update_layers_u (m_layers n) wold e in
            (mkNet (m_mu n) (m_n n) (m_outputs n) w' (m_x n) (m_y n) ls, rmap (fun _ => e) r)
        end
    end.

  (* mlp.py:324-326 *)
  Fixpoint epoch_loop_u (data : list (vec * val)) : M net (list val) :=
    match data with
    | [] => ret []
    | (x, d) :: rest =>
        bind (net_predict_u x) (fun _ =>
        bind (net_update_u d) (fun e =>
        bind (epoch_loop_u rest) (fun es => ret (e :: es))))
    end.
  (* mlp.py:323-327 *)
  Fixpoint epochs_loop_u (k epoch : nat) (data : list (vec * val)) (e : list val) (mse : vec) : M net (list val * vec) :=
    match k with
    | O => ret (e, mse)
    | S k' =>
        bind (epoch_loop_u data) (fun es =>
        let e' := e ++ es in
        epochs_loop_u k' (S epoch) data e' (mse ++ [epoch_mse e' epoch (length data)]))
    end.
  (** mlp.py:261-328 NetworkMLP.train *)
  Definition net_train_u (x : mat) (d : darg T) (epochs : nat) (shuffle : option (list nat)) : M net (list val * vec) :=
    fun n =>
    match check_data x d n with
    | Err e => (n, Err e)
    | Ok ds =>
        let data := match shuffle with
                    | None => combine x ds
                    | Some idx => combine (take idx x []) (take idx ds (VNum n0))
                    end in
        epochs_loop_u epochs 0 data [] [] n
    end.
  (* mlp.py:330-359 NetworkMLP.run *)
  Fixpoint net_run_u (x : mat) : M net (list val) :=
    match x with
    | [] => ret []
    | r :: x' => bind (net_predict_u r) (fun y => bind (net_run_u x') (fun ys => ret (y :: ys)))
    end.
End MlpUnknown.
