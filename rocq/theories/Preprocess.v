(** Model of padasip/preprocess: standardize, standardize_back, input_from_history, PCA, LDA. *)
From Coq Require Import QArith.
From Verif Require Import Py Num Numpy.
Open Scope nat_scope.

Section Preprocess.
  Context {T : Type} {NT : Num T}.
  Notation vec := (list T).
  Notation mat := (list (list T)).

  (** standardize.py:61-99.  [None] is the Python None; offset and scale are numbers, x converts to a
      1-d float array. *)
  Definition standardize (x : vec) (offset scale : option T) : vec :=
    let offset := match offset with None => mean x | Some a => a end in
    let scale := match scale with None => std x | Some b => b end in
    map (fun a => ndiv (nsub a offset) scale) x.

  (** standardize_back.py:33-62: xs*scale + offset *)
  Definition standardize_back (xs : vec) (offset scale : T) : vec :=
    map (fun a => nadd (nmul a scale) offset) xs.

  (** input_from_history.py:35-73.  The argument n: a Python int or something else (line 62). The
      shape of the result without rows (n > len(a)) is not represented: no rows. *)
  Inductive pyint : Type := PInt (z : Z) | PNotInt.
  (* input_from_history.py:35-73 *)
  Definition input_from_history (a : vec) (n : pyint) (bias : bool) : result mat :=
    match n with
    | PNotInt => Err ValueError
    | PInt z =>
        if (z <=? 0)%Z then Err ValueError
        else
          let n := Z.to_nat z in
          let rows := Z.to_nat (Z.of_nat (length a) - z + 1) in   (* range(len(a)-n+1) *)
          let x := map (fun i => slice a i (i + n)) (seq 0 rows) in
          (* np.vstack((x.T, np.ones(len(x)))).T appends a column of ones *)
          Ok (if bias then map (fun r => r ++ [n1]) x else x)
    end.

  (** ** PCA *)
  (** np.linalg.eig: eigenvalues and the matrix whose COLUMNS are eigenvectors, None for
      LinAlgError; numpy's complex results are outside the model (T is the real scalar type).
      argsort: the indices that sort an array; which of equal elements comes first is not fixed. *)
  Variable eig : mat -> option (vec * mat).
  Variable argsort : vec -> list nat.

  (** np.cov(x.T) for a 2-d array x with [cols] columns: the columns of x are the variables;
      X -= mean; X.dot(X.T) * (1 / (N - 1)) *)
  (* pca.py:94,122 *)
  Definition cov (cols : nat) (x : mat) : mat :=
    let X := map (fun v => map (fun a => nsub a (mean v)) v) (transpose cols x) in
    let f := ndiv n1 (nofnat (length x - 1)) in
    map (fun u => map (fun v => nmul (ndot u v) f) X) X.

  (** eig(np.cov(x.T)); for one column np.cov returns a 0-d array, which eig rejects *)
  (* pca.py:94,122 *)
  Definition eig_cov (cols : nat) (x : mat) : result (vec * mat) :=
    if cols =? 1 then Err LinAlgError
    else match eig (cov cols x) with Some r => Ok r | None => Err LinAlgError end.

  (** (-eigen_values).argsort() *)
  (* pca.py:96,98,124; lda.py:167,195 *)
  Definition descending (values : vec) : list nat := argsort (map nopp values).
  (* pca.py:96,98,124; lda.py:167,195 *)
  Definition pick {A} (dflt : A) (l : list A) (idx : list nat) : list A := map (fun i => nth i l dflt) idx.

  (** pca.py:75-98 PCA_components (the unused ordering of the eigenvectors on line 96 has no effect) *)
  Definition PCA_components (cols : nat) (x : mat) : result vec :=
    rmap (fun '(values, vectors) => pick n0 values (descending values)) (eig_cov cols x).

  (** the argument n of PCA and LDA: [None] for the default False; 0 is false as well *)
  (* pca.py:118; lda.py:161 *)
  Definition features (cols : nat) (n : option Z) : Z :=
    match n with
    | None => Z.of_nat cols - 1
    | Some z => if (z =? 0)%Z then Z.of_nat cols - 1 else z
    end%Z.

  (** eigen_order[:n].dot(x.T).T with eigen_order = eigen_vectors.T[(-eigen_values).argsort()]
      (pca.py:124-126, lda.py:167-168) *)
  Definition project (cols : nat) (x : mat) (n : Z) (values : vec) (vectors : mat) : mat :=
    let eigen_order := pick [] (transpose cols vectors) (descending values) in
    let top := slice_to eigen_order n in
    transpose (length x) (mm (length x) top (transpose cols x)).

  (** pca.py:101-126 PCA *)
  Definition PCA (cols : nat) (x : mat) (n : option Z) : result mat :=
    let n := features cols n in
    if (Z.of_nat cols <=? n)%Z then Err AssertionError
    else rmap (fun '(values, vectors) => project cols x n values vectors) (eig_cov cols x).

  (** ** LDA *)
  (** labels are compared by ==; [set_order] is the (unspecified) order in which Python's set(labels)
      is enumerated; [inv] is np.linalg.inv, None for LinAlgError.  labels is a list or 1-d array of
      labels of one type, so that np.array(tuple(set(labels))) and `labels == cl` compare the labels
      themselves (numpy would turn a mixture of types into strings); means (lda.py:118-122) are
      recomputed where they are used. *)
  Context {L : Type}.
  Variable label_eqb : L -> L -> bool.
  Variable set_order : list L -> list L.
  Variable inv : mat -> option mat.

  (** x[labels == cl] *)
  (* lda.py:121,126,135 *)
  Definition select (labels : list L) (x : mat) (cl : L) : mat :=
    map snd (filter (fun p => label_eqb (fst p) cl) (combine labels x)).

  (* lda.py:123,125,128,129,131,135 *)
  Definition madd (A B : mat) : mat := map2 (map2 nadd) A B.
  (* lda.py:123,125,128,129,131,135 *)
  Definition msum (cols : nat) (l : list mat) : mat := fold_left madd l (zeros2 cols cols).
  (** np.dot(dif.reshape(cols, 1), dif.reshape(1, cols)) *)
  (* lda.py:128,134 *)
  Definition sq_outer (dif : vec) : mat := outer dif dif.

  (** lda.py:124-129 *)
  Definition scatter_within (cols : nat) (x : mat) (labels : list L) (classes : list L) : mat :=
    msum cols (map (fun cl =>
      let m := mean0 cols (select labels x cl) in
      msum cols (map (fun row => sq_outer (map2 nsub row m)) (select labels x cl))) classes).

  (** lda.py:130-135 *)
  Definition scatter_between (cols : nat) (x : mat) (labels : list L) (classes : list L) : mat :=
    let total_mean := mean0 cols x in
    msum cols (map (fun cl =>
      let m := mean0 cols (select labels x cl) in
      mscale (nofnat (length (select labels x cl))) (sq_outer (map2 nsub m total_mean))) classes).

  (** lda.py:99-139 LDA_base; a boolean mask of the wrong length raises IndexError *)
  Definition LDA_base (cols : nat) (x : mat) (labels : list L) : result (vec * mat) :=
    if negb (length labels =? length x) then Err IndexError
    else
      let classes := set_order labels in
      match inv (scatter_within cols x labels classes) with
      | None => Err LinAlgError
      | Some si =>
          match eig (mm cols si (scatter_between cols x labels classes)) with
          | Some r => Ok r
          | None => Err LinAlgError
          end
      end.

  (** lda.py:141-168 LDA *)
  Definition LDA (cols : nat) (x : mat) (labels : list L) (n : option Z) : result mat :=
    let n := features cols n in
    if (Z.of_nat cols <=? n)%Z then Err AssertionError
    else rmap (fun '(values, vectors) => project cols x n values vectors) (LDA_base cols x labels).

  (** lda.py:171-195 LDA_discriminants *)
  Definition LDA_discriminants (cols : nat) (x : mat) (labels : list L) : result vec :=
    rmap (fun '(values, vectors) => pick n0 values (descending values)) (LDA_base cols x labels).
End Preprocess.
