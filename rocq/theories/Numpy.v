(** The numpy array functions used by the code.  1-d arrays are lists, 2-d arrays lists of rows. *)
From Coq Require Import QArith.
From Verif Require Import Py Num.
Open Scope nat_scope.

(** Broadcasting along one axis: equal lengths, or one operand of length 1, else ValueError. *)
(* numpy's rule for +, -, * on arrays, e.g. vslms_ang.py:100, elbnd.py:120, mlp.py:183,186 *)
Definition bc {A B C} (f : A -> B -> C) (u : list A) (v : list B) : result (list C) :=
  if length u =? length v then Ok (map2 f u v)
  else match u, v with
       | [a], _ => Ok (map (f a) v)
       | _, [b] => Ok (map (fun a => f a b) u)
       | _, _ => Err ValueError
       end.

Section Numpy.
  Context {T : Type} {NT : Num T}.
  Notation vec := (list T).
  Notation mat := (list (list T)).

  (** np.zeros(n), np.ones(n), np.zeros((r, c)) *)
  (* used at base_filter.py:57,89,202,203,233; gngd.py:83; ocnlms.py:130,152; ese.py:141 *)
  Definition zeros (n : nat) : vec := repeat n0 n.
  (* used at input_from_history.py:72; mlp.py:114,248 *)
  Definition ones (n : nat) : vec := repeat n1 n.
  (* used at base_filter.py:204,232,316; ocnlms.py:129; lda.py:119,123,131 *)
  Definition zeros2 (r c : nat) : mat := repeat (zeros c) r.

  (** np.identity(n) / np.eye(n) *)
  (* used at rls.py:177; base_filter.py:234,235; vslms_benveniste.py:96 *)
  Definition identity (n : nat) : mat :=
    map (fun i => map (fun j => if i =? j then n1 else n0) (seq 0 n)) (seq 0 n).

  (** u + v, u - v, u * v on 1-d arrays with broadcasting *)
  (* used at vslms_ang.py:100; vslms_benveniste.py:97; ocnlms.py:103,105,122; mlp.py:183,186,449 *)
  Definition bc_add (u v : vec) : result vec := bc nadd u v.
  (* used at vslms_ang.py:100; vslms_benveniste.py:97; ocnlms.py:103,105,122; mlp.py:183,186,449 *)
  Definition bc_sub (u v : vec) : result vec := bc nsub u v.
  (* used at vslms_ang.py:100; vslms_benveniste.py:97; ocnlms.py:103,105,122; mlp.py:183,186,449 *)
  Definition bc_mul (u v : vec) : result vec := bc nmul u v.

  (** scalar * array *)
  (* used at nlms.py:164 and the other learning rules; rls.py:177,185; vslms_benveniste.py:96; mlp.py:184,187,455 *)
  Definition vscale (c : T) (v : vec) : vec := map (nmul c) v.
  (* used at nlms.py:164 and the other learning rules; rls.py:177,185; vslms_benveniste.py:96; mlp.py:184,187,455 *)
  Definition mscale (c : T) (A : mat) : mat := map (vscale c) A.

  (** A - B on 2-d arrays with broadcasting on both axes *)
  (* used at vslms_benveniste.py:96 *)
  Definition bc_sub2 (A B : mat) : result mat :=
    rbind (bc (fun ra rb => bc_sub ra rb) A B) sequence.

  (** np.dot of two 1-d arrays: no broadcasting, the lengths must agree *)
  (* used at base_filter.py:114; nlms.py:164; gngd.py:90-92; mlp.py:427 *)
  Definition vdot (u v : vec) : result T :=
    if length u =? length v then Ok (ndot u v) else Err ValueError.

  (** A.T for a 2-d array with [c] columns *)
  (* used at base_filter.py:271,274; ap.py:161; pca.py:94,124,126; lda.py:167,168; ese.py:134 *)
  Definition column (j : nat) (A : mat) : vec := map (fun r => nth j r n0) A.
  (* used at base_filter.py:271,274; ap.py:161; pca.py:94,124,126; lda.py:167,168; ese.py:134 *)
  Definition transpose (c : nat) (A : mat) : mat := map (fun j => column j A) (seq 0 c).

  (** np.dot(A, v) for A with rows of the length of v; entries are np.dot of rows *)
  (* used at base_filter.py:276; ap.py:163; rls.py:184,186 *)
  Definition mv (A : mat) (v : vec) : vec := map (fun r => ndot r v) A.
  (** the same with numpy's shape check *)
  (* used at base_filter.py:271,326; vslms_benveniste.py:97 *)
  Definition mvdot (A : mat) (v : vec) : result vec :=
    if forallb (fun r => length r =? length v) A then Ok (mv A v) else Err ValueError.
  (** the same for a square [A]: a square array without rows has no columns either, which the list
      of its rows does not say *)
  (* used at vslms_benveniste.py:97 *)
  Definition sqdot (A : mat) (v : vec) : result vec :=
    if length A =? length v then mvdot A v else Err ValueError.

  (** np.dot(A, B) / A @ B, B with [c] columns *)
  (* used at base_filter.py:274; ap.py:161; rls.py:183; lda.py:137,168; pca.py:126 *)
  Definition mm (c : nat) (A B : mat) : mat :=
    map (fun ra => map (fun cb => ndot ra cb) (transpose c B)) A.

  (** np.outer(u, v) / u[:, None] * v[None, :] *)
  (* used at rls.py:183; vslms_benveniste.py:96; lda.py:128,134; mlp.py:184,187,455 *)
  Definition outer (u v : vec) : mat := map (fun a => map (fun b => nmul a b) v) u.

  (** x.mean() / np.mean of a 1-d array: sum divided by the count *)
  (* used at ocnlms.py:155-159; standardize.py:82; lda.py:121,130; le.py:174,182 *)
  Definition mean (v : vec) : T := ndiv (nsum v) (nofnat (length v)).
  (** np.std / x.std(): root of the mean squared deviation from the mean (ddof = 0) *)
  (* used at standardize.py:89; le.py:175 *)
  Definition std (v : vec) : T :=
    let m := mean v in
    nsqrt (mean (map (fun a => npown (nabs (nsub a m)) 2) v)).
  (** np.mean(A, axis=0), np.std(A, axis=0) for a 2-d array with [c] columns *)
  (* used at ocnlms.py:155-159; standardize.py:82; lda.py:121,130; le.py:174,182 *)
  Definition mean0 (c : nat) (A : mat) : vec := map mean (transpose c A).
  (* used at standardize.py:89; le.py:175 *)
  Definition std0 (c : nat) (A : mat) : vec := map std (transpose c A).

  (** np.max of a non-empty 1-d array; a nan is passed on (numpy's maximum), and nan is what is not equal to itself *)
  (* used at elbnd.py:123 *)
  Definition nmax (a b : T) : T := if nltb a b then b else if neqb b b then a else b.
  (* used at elbnd.py:123 *)
  Definition vmax (a : T) (l : vec) : T := fold_left nmax l a.

  (** np.delete(v, i) for an index in range *)
  (* used at ocnlms.py:159 *)
  Definition delete (i : nat) (v : vec) : vec := firstn i v ++ skipn (S i) v.

  (** all rows have length c *)
  (* np.array(x) succeeds: base_filter.py:196-200,308-312 *)
  Definition rect (c : nat) (A : mat) : bool := forallb (fun r => length r =? c) A.
End Numpy.
