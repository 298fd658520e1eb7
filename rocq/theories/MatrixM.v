(** The Matrix class, src/Matrix.cpp.  Eigen's dynamic row-major matrix is its
    numbers of rows and columns and its entries row by row; an uninitialised
    entry is [n0] here and is always overwritten before it is read. *)
From Coq Require Import String Bool Arith ZArith List.
From Verif Require Import Base Num Expr Simplify.
Import ListNotations.

Section Model.
  Context {num : Type} {N : NumOps num}.
  Notation expr := (expr num).

  (** Replace the element at position [k]; nothing happens past the end. *)
  Fixpoint set_nth (k : nat) (v : num) (d : list num) : list num :=
    match k, d with
    | _, [] => []
    | O, _ :: d => v :: d
    | S k, x :: d => x :: set_nth k v d
    end.

  (** matrix(i, j) = v for a matrix with [cols] columns, e.g. src/Matrix.cpp:27. *)
  Definition mset (cols : nat) (d : list num) (i j : nat) (v : num) : list num := set_nth (i * cols + j) v d.

  (** Matrix::Matrix(size_t, size_t, std::vector<double>&), src/Matrix.cpp:20-32.
      [numRows * numCols] is taken not to overflow size_t. *)
  Definition new_matrix (rows cols : nat) (vals : list num) : expr :=
    let count := rows * cols in
    EMat rows cols
      (fold_left (fun d index =>
                    mset cols d (index / cols) (index mod cols)
                      (if index <? length vals then nth index vals n0 else n0))
                 (seq 0 count) (repeat n0 count)).

  (** Matrix::Transpose, src/Matrix.cpp:56-59 (Eigen's transpose). *)
  Definition transpose (rows cols : nat) (d : list num) : expr :=
    EMat cols rows (mtab cols rows (fun i j => mget cols d j i)).

  (** Matrix::Identity, src/Matrix.cpp:74-83. *)
  Definition identity (rows cols : nat) : expr :=
    EMat rows cols
      (fold_left (fun d x =>
         fold_left (fun d y => mset cols d x y (if x =? y then n1 else n0)) (seq 0 cols) d)
       (seq 0 rows) (repeat n0 (rows * cols))).
End Model.
