(** Linear systems, src/Linear.cpp and include/Oasis/Linear.hpp. *)
From Coq Require Import String Bool Arith ZArith List.
From Verif Require Import Base Num Expr Simplify FindZeros MatrixM.
Import ListNotations.
Open Scope nat_scope.
Open Scope m_scope.

Section Model.
  Context {num : Type} {N : NumOps num}.
  Notation expr := (expr num).

  (** std::map<std::string, Eigen::Index>, as the list of its pairs.  The order
      of the pairs is that of insertion instead of alphabetical; the code only
      looks keys up and copies all pairs. *)
  Definition varmap := list (string * nat).
  Fixpoint map_find (key : string) (m : varmap) : option nat :=
    match m with
    | [] => None
    | (k, v) :: m => if String.eqb key k then Some v else map_find key m
    end.

  (** GetMapValue, include/Oasis/Linear.hpp:58-73: the new map, the value and
      whether nextValue was used. *)
  Definition get_map_value (m : varmap) (key : string) (next : nat) : varmap * nat * bool :=
    match map_find key m with
    | Some v => (m, v, false)
    | None => (m ++ [(key, next)], next, true)
    end.

  (** The local variables of ConstructMatrices: A (row by row), b, vars, varCount. *)
  Record lin := { l_A : list num; l_b : list num; l_vars : varmap; l_count : nat }.

  (** A(row, col) = v of an n x n matrix; a column past the end is out of range. *)
  Definition set_A (n row col : nat) (v : num) (s : lin) : M lin :=
    if col <? n then ret {| l_A := mset n (l_A s) row col v; l_b := l_b s; l_vars := l_vars s; l_count := l_count s |}
    else undef BadIndex.

  (** The column of a variable, with the update of vars and varCount,
      src/Linear.cpp:69-71 and 75-79. *)
  Definition column (x : string) (s : lin) : lin * nat :=
    let '(m, col, used) := get_map_value (l_vars s) x (l_count s) in
    ({| l_A := l_A s; l_b := l_b s; l_vars := m; l_count := if used then Datatypes.S (l_count s) else l_count s |}, col).

  Definition as_realvar (o : option expr) : option (num * string) :=
    match o with Some (EBin _ (EReal c) (EVar x)) => Some (c, x) | _ => None end.

  (** One term of an equation, src/Linear.cpp:65-82; other terms are skipped. *)
  Definition lin_term (n row : nat) (s : lin) (t : expr) : M lin :=
    match as_real (rcast PReal t) with
    | Some c =>
      ret {| l_A := l_A s; l_b := set_nth row (n_mul nm1 c) (l_b s); l_vars := l_vars s; l_count := l_count s |}
    | None =>
    match as_var (rcast PVar t) with
    | Some x => let (s, col) := column x s in set_A n row col n1 s
    | None =>
    match as_realvar (rcast (PBin OMul PReal PVar) t) with
    | Some (c, x) => let (s, col) := column x s in set_A n row col c s
    | None => ret s
    end end end.

  Fixpoint foldM {A B} (f : A -> B -> M A) (s : A) (l : list B) : M A :=
    match l with
    | [] => ret s
    | x :: l => s <- f s x ;; foldM f s l
    end.

  (** One equation, src/Linear.cpp:61-83: the cast to Add gives null for
      anything else, and is dereferenced. *)
  Definition lin_row (n : nat) (s : lin) (re : nat * expr) : M lin :=
    match rcast pAdd (snd re) with
    | Some (EBin _ a b) => foldM (lin_term n (fst re)) s (flatten OAdd a b)
    | _ => undef NullDeref
    end.

  (** ConstructMatrices, src/Linear.cpp:40-86. *)
  Definition construct_matrices (es : list expr) : M lin :=
    let n := length es in
    foldM (lin_row n)
      {| l_A := repeat n0 (n * n); l_b := repeat n0 n; l_vars := []; l_count := 0 |}
      (combine (seq 0 n) es).

  (** SolveLinearSystems, src/Linear.cpp:14-38.  [S] is Accept(SimplifyVisitor);
      [solve n A b] is matrixA.inverse() * matrixb of Eigen (114-122), about
      which nothing is assumed.  A, b always have the same number of rows.  The
      index of x[...] is a column that was used, so below n. *)
  Variable S : expr -> M expr.
  Variable solve : nat -> list num -> list num -> list num.

  Definition solve_linear_systems (es : list expr) : M (list (string * num)) :=
    es <- mapM (fun e => m_value (S e)) es ;;
    s <- construct_matrices es ;;
    let x := solve (length es) (l_A s) (l_b s) in
    ret (map (fun kv => (fst kv, nth (snd kv) x n0)) (l_vars s)).

  (** SolveLinearSystems(MatrixXXD&), src/Linear.cpp:88-112: the last column of
      the augmented matrix is the right-hand side.  [None] is the empty vector.
      A matrix without columns has cols = SIZE_MAX, which differs from rows. *)
  Definition solve_augmented (rows cols : nat) (d : list num) : option (list num) :=
    match cols with
    | O => None
    | Datatypes.S c =>
      if rows =? c then
        let A := mtab rows c (fun i j => mget cols d i j) in
        let b := map (fun i => mget cols d i c) (seq 0 rows) in
        Some (solve rows A b)
      else None
    end.
End Model.
