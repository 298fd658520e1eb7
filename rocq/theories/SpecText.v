(** What the properties of the text front ends are stated in.  This file does
    not mention any parser or serializer. *)
From Coq Require Import String Ascii Bool Arith List.
From Verif Require Import Expr.
Import ListNotations.
Open Scope string_scope.

(** ** Words *)

(** White space: tab, line feed, vertical tab, form feed, carriage return, blank. *)
Definition blank (c : ascii) : Prop := In (nat_of_ascii c) [9; 10; 11; 12; 13; 32].

(** [splits l ws]: the text [l] consists of the words [ws] separated by white space. *)
Inductive splits : list ascii -> list (list ascii) -> Prop :=
| splits_end : splits [] []
| splits_blank c l ws : blank c -> splits l ws -> splits (c :: l) ws
| splits_word w l ws :
    w <> [] -> (forall c, In c w -> ~ blank c) ->
    match l with [] => True | c :: _ => blank c end ->
    splits l ws -> splits (w ++ l) (w :: ws).
Definition words_of (s : string) (ts : list string) : Prop :=
  splits (list_ascii_of_string s) (map list_ascii_of_string ts).

(** ** Parentheses *)

(** The number of open parentheses after reading [l] with [d] already open;
    [None] when one is closed that was not opened. *)
Fixpoint depth (d : nat) (l : list ascii) : option nat :=
  match l with
  | [] => Some d
  | c :: l => if Ascii.eqb c "(" then depth (S d) l
              else if Ascii.eqb c ")" then match d with O => None | S d => depth d l end
              else depth d l
  end.
Definition balanced (s : string) : Prop := depth 0 (list_ascii_of_string s) = Some 0.

(** ** Infix expressions *)

(** The words with a meaning of their own. *)
Definition reserved : list string :=
  ["+"; "-"; "*"; "/"; "^"; "("; ")"; ","; "log"; "dd"; "in"].

(** The binary operators, with their precedence. *)
Inductive operator : string -> binop -> nat -> Prop :=
| op_add : operator "+" OAdd 1
| op_sub : operator "-" OSub 1
| op_mul : operator "*" OMul 2
| op_div : operator "/" ODiv 2
| op_exp : operator "^" OExp 3.

(** The functions of two arguments. *)
Inductive function : string -> binop -> Prop :=
| fn_log : function "log" OLog
| fn_dd : function "dd" ODeriv
| fn_in : function "in" OInt.

Section Grammar.
  Context {num : Type}.
  Notation expr := (expr num).
  (** The number a word stands for, if any; the name of the imaginary unit. *)
  Variable number : string -> option num.
  Variable imag : string.

  Inductive operand : string -> expr -> Prop :=
  | opd_number t c : number t = Some c -> operand t (EReal c)
  | opd_imag : number imag = None -> operand imag EImag
  | opd_e : number "e" = None -> operand "e" EEuler
  | opd_var t : number t = None -> ~ In t reserved -> t <> imag -> t <> "e" -> operand t (EVar t).

  (** [infix_of k ts e]: the words [ts] are an infix expression with the tree
      [e], whose top operator outside parentheses has at least the precedence
      [k] (4: an operand, a parenthesised expression or a function call).
      All operators group to the left. *)
  Inductive infix_of : nat -> list string -> expr -> Prop :=
  | ix_operand t e : operand t e -> infix_of 4 [t] e
  | ix_paren ts e : infix_of 1 ts e -> infix_of 4 ("(" :: ts ++ [")"]) e
  | ix_call f o ts a us b :
      function f o -> infix_of 1 ts a -> infix_of 1 us b ->
      infix_of 4 (f :: "(" :: ts ++ "," :: us ++ [")"]) (EBin o a b)
  | ix_op s o k ts a us b :
      operator s o k -> infix_of k ts a -> infix_of (S k) us b ->
      infix_of k (ts ++ s :: us) (EBin o a b)
  | ix_up k ts e : infix_of (S k) ts e -> infix_of k ts e.

  (** Words without parentheses that alternate operands and operators, and a
      tree with these words from left to right. *)
  Inductive flat_tree : list string -> expr -> Prop :=
  | ft_operand t e : operand t e -> flat_tree [t] e
  | ft_op s o k ts a us b :
      operator s o k -> flat_tree ts a -> flat_tree us b ->
      flat_tree (ts ++ s :: us) (EBin o a b).

  Inductive alternating : list string -> Prop :=
  | alt_one t e : operand t e -> alternating [t]
  | alt_more t e s o k ts : operand t e -> operator s o k -> alternating ts -> alternating (t :: s :: ts).

  (** The precedence at the top of a tree; a leaf binds tightest. *)
  Definition top_prec (e : expr) : nat :=
    match e with
    | EBin OAdd _ _ | EBin OSub _ _ => 1
    | EBin OMul _ _ | EBin ODiv _ _ => 2
    | EBin OExp _ _ => 3
    | _ => 4
    end.
  (** The usual precedences, grouping to the left: the left operand of a node
      binds at least as tightly as the node, the right operand tighter. *)
  Fixpoint grouped (e : expr) : Prop :=
    match e with
    | EBin _ a b => top_prec e <= top_prec a /\ top_prec e < top_prec b /\ grouped a /\ grouped b
    | _ => True
    end.
End Grammar.

(** ** What can be written in infix form *)
Section Written.
  Context {num : Type}.
  Notation expr := (expr num).
  (** The text of a literal and the number a word stands for. *)
  Variable fmt : num -> string.
  Variable number : string -> option num.

  (** Punctuation: the characters that are words by themselves. *)
  Definition punct (c : ascii) : Prop :=
    In c ["+"; "-"; "*"; "/"; "^"; "("; ")"; ","]%char.
  (** A non-empty word without white space and punctuation. *)
  Definition one_word (t : string) : Prop :=
    t <> "" /\ forall c, In c (list_ascii_of_string t) -> ~ punct c /\ ~ blank c.

  Definition letter (c : ascii) : Prop :=
    65 <= nat_of_ascii c <= 90 \/ 97 <= nat_of_ascii c <= 122.
  Definition digit_or_point (c : ascii) : Prop :=
    48 <= nat_of_ascii c <= 57 \/ c = "."%char.

  (** The words with a meaning of their own and the single letters are not numbers. *)
  Definition sane_numbers : Prop :=
    (forall t, In t reserved -> number t = None)
    /\ (forall c, letter c -> number (String c "") = None).

  (** Built by the binary operators from literals, variables, i and e, where
      literals are single words that are read as numbers and variables are
      single words that are not read as something else. *)
  Fixpoint writable (e : expr) : Prop :=
    match e with
    | EReal c => one_word (fmt c) /\ number (fmt c) <> None
    | EVar x => one_word x /\ number x = None /\ ~ In x reserved /\ x <> "i" /\ x <> "e"
    | EImag => number "i" = None
    | EEuler => number "e" = None
    | EBin _ a b => writable a /\ writable b
    | _ => False
    end.

  (** The expression with every literal replaced by the number its text stands for. *)
  Fixpoint reread (e : expr) : expr :=
    match e with
    | EReal c => match number (fmt c) with Some c' => EReal c' | None => EReal c end
    | EBin o a b => EBin o (reread a) (reread b)
    | EUn o a => EUn o (reread a)
    | _ => e
    end.

  (** Built by the binary operators from non-negative literals that print
      exactly, variables of one letter, i and e. *)
  Fixpoint school (e : expr) : Prop :=
    match e with
    | EReal c => fmt c <> "" /\ (forall d, In d (list_ascii_of_string (fmt c)) -> digit_or_point d)
                 /\ number (fmt c) = Some c
    | EVar x => exists c, x = String c "" /\ letter c /\ x <> "i" /\ x <> "e"
    | EImag | EEuler => True
    | EBin _ a b => school a /\ school b
    | _ => False
    end.

  Definition leaf (e : expr) : Prop :=
    match e with EBin _ _ _ | EUn _ _ => False | _ => True end.
  Definition call (e : expr) : Prop :=
    match e with EBin OLog _ _ | EBin ODeriv _ _ | EBin OInt _ _ => True | _ => False end.
  (** No parenthesis follows directly on a parenthesis: right operands are
      leaves, and left operands are leaves or calls of log, dd, in. *)
  Fixpoint shallow (e : expr) : Prop :=
    match e with
    | EBin _ a b => leaf b /\ (leaf a \/ call a /\ shallow a)
    | _ => leaf e
    end.

  (** Names and numbers without parentheses of their own. *)
  Fixpoint leaves_balanced (e : expr) : Prop :=
    match e with
    | EReal c => balanced (fmt c)
    | EVar x => balanced x
    | EBin _ a b => leaves_balanced a /\ leaves_balanced b
    | EUn _ a => leaves_balanced a
    | _ => True
    end.
  Fixpoint contains_matrix (e : expr) : Prop :=
    match e with
    | EMat _ _ _ => True
    | EBin _ a b => contains_matrix a \/ contains_matrix b
    | EUn _ a => contains_matrix a
    | _ => False
    end.
End Written.

(** ** Rejection *)

(** Parentheses among words, as [depth] for characters. *)
Fixpoint word_depth (d : nat) (ts : list string) : option nat :=
  match ts with
  | [] => Some d
  | t :: ts => if String.eqb t "(" then word_depth (S d) ts
               else if String.eqb t ")" then match d with O => None | S d => word_depth d ts end
               else word_depth d ts
  end.
Definition count (l : list string) (ts : list string) : nat :=
  length (filter (fun t => existsb (String.eqb t) l) ts).
Definition count_operands (ts : list string) : nat :=
  length (filter (fun t => negb (existsb (String.eqb t) reserved)) ts).

(** ** Preprocessing *)

(** [adds l l']: [l'] is [l] with white space left out or added and '*' added. *)
Inductive adds : list ascii -> list ascii -> Prop :=
| adds_end : adds [] []
| adds_keep c l l' : adds l l' -> adds (c :: l) (c :: l')
| adds_drop c l l' : blank c -> adds l l' -> adds (c :: l) l'
| adds_blank c l l' : blank c -> adds l l' -> adds l (c :: l')
| adds_star l l' : adds l l' -> adds l ("*"%char :: l').

(** ** PALM *)

Inductive sum_word : string -> binop -> Prop :=
| sw_add : sum_word "+" OAdd
| sw_mul : sum_word "*" OMul
| sw_int : sum_word "int" OInt.
Inductive chain_word : string -> binop -> Prop :=
| cw_sub : chain_word "-" OSub
| cw_div : chain_word "/" ODiv
| cw_exp : chain_word "^" OExp
| cw_log : chain_word "log" OLog
| cw_d : chain_word "d" ODeriv.

(** [subwords ts us]: [ts] is [us] with some words left out. *)
Inductive subwords : list string -> list string -> Prop :=
| sub_end : subwords [] []
| sub_keep t ts us : subwords ts us -> subwords (t :: ts) (t :: us)
| sub_skip t ts us : subwords ts us -> subwords ts (t :: us).

(** [s] does not end with white space. *)
Definition no_trailing_blank (s : string) : Prop :=
  forall l c, list_ascii_of_string s = (l ++ [c])%list -> ~ blank c.

Section Palm.
  Context {num : Type}.
  Notation expr := (expr num).
  Variable number : string -> option num.

  (** a o (b o (c o ...)) *)
  Inductive right_nested (o : binop) : list expr -> expr -> Prop :=
  | rn_two a b : right_nested o [a; b] (EBin o a b)
  | rn_more a l r : right_nested o l r -> right_nested o (a :: l) (EBin o a r).

  (** docs/PALM.bnf, without the spellings the parser does not know (r, v and
      the non-ASCII operators).  Sums, products and integrals of several
      operands are the trees BuildFromVector makes (C01, C02, C03). *)
  Inductive palm : list string -> expr -> Prop :=
  | pl_real t c : number t = Some c -> palm ["("; "real"; t; ")"] (EReal c)
  | pl_i : palm ["("; "i"; ")"] EImag
  | pl_j : palm ["("; "j"; ")"] EImag
  | pl_var x : x <> "" -> x <> ")" -> palm ["("; "var"; x; ")"] (EVar x)
  | pl_pi : palm ["("; "pi"; ")"] EPi
  | pl_e : palm ["("; "e"; ")"] EEuler
  | pl_neg ts e : palm ts e -> palm ("(" :: "neg" :: ts ++ [")"]) (ENeg e)
  | pl_sum s o ts es e : sum_word s o -> palms ts es -> build o es = Some e -> palm ("(" :: s :: ts ++ [")"]) e
  | pl_chain s o ts es e : chain_word s o -> palms ts es -> right_nested o es e -> palm ("(" :: s :: ts ++ [")"]) e
  with palms : list string -> list expr -> Prop :=
  | pls_end : palms [] []
  | pls_more ts e us es : palm ts e -> palms us es -> palms (ts ++ us) (e :: es).

  (** The PALM text of an expression, one space between words. *)
  Variable fmt : num -> string.
  Definition palm_word (o : binop) : string :=
    match o with
    | OAdd => "+" | OSub => "-" | OMul => "*" | ODiv => "/" | OExp => "^"
    | OLog => "log" | ODeriv => "d" | OInt => "int"
    end.
  Fixpoint palm_text (e : expr) : string :=
    match e with
    | EReal c => "( real " ++ fmt c ++ " )"
    | EImag => "( i )"
    | EVar x => "( var " ++ x ++ " )"
    | EPi => "( pi )"
    | EEuler => "( e )"
    | EUn _ a => "( neg " ++ palm_text a ++ " )"
    | EBin o a b => "( " ++ palm_word o ++ " " ++ palm_text a ++ " " ++ palm_text b ++ " )"
    | EUndef | EMat _ _ _ => ""
    end.

  (** The PALM text of an operator applied to a list of operands. *)
  Fixpoint palm_operands (es : list expr) : string :=
    match es with
    | [] => ""
    | e :: es => palm_text e ++ " " ++ palm_operands es
    end.
  Definition palm_call (s : string) (es : list expr) : string :=
    "( " ++ s ++ " " ++ palm_operands es ++ ")".

  (** A non-empty word without white space. *)
  Definition solid (t : string) : Prop :=
    t <> "" /\ forall c, In c (list_ascii_of_string t) -> ~ blank c.
  (** Expressions of the PALM grammar, with literals that print exactly. *)
  Fixpoint palm_expr (e : expr) : Prop :=
    match e with
    | EReal c => solid (fmt c) /\ number (fmt c) = Some c
    | EVar x => solid x /\ x <> ")"
    | EImag | EPi | EEuler => True
    | EUn ONeg a => palm_expr a
    | EBin _ a b => palm_expr a /\ palm_expr b
    | _ => False
    end.
End Palm.

(** ** Words and punctuation *)

(** [lexed l ts]: the text [l] consists of the words [ts], where white space
    separates words and punctuation characters are words by themselves. *)
Inductive lexed : list ascii -> list string -> Prop :=
| lx_end : lexed [] []
| lx_blank c l ts : blank c -> lexed l ts -> lexed (c :: l) ts
| lx_punct c l ts : punct c -> lexed l ts -> lexed (c :: l) (String c "" :: ts)
| lx_word w l ts :
    w <> [] -> (forall c, In c w -> ~ punct c /\ ~ blank c) ->
    match l with [] => True | c :: _ => punct c \/ blank c end ->
    lexed l ts -> lexed (w ++ l)%list (string_of_list_ascii w :: ts).

(** [split_by_stars t us]: the word [t] cut into pieces, with * between them. *)
Inductive split_by_stars : string -> list string -> Prop :=
| sb_one t : split_by_stars t [t]
| sb_more t u us : t <> "" -> split_by_stars u us -> split_by_stars (t ++ u) (t :: "*" :: us).

(** [starred ts us]: the words [us] are the words [ts], in the same order,
    where words may be cut into pieces and * is added. *)
Inductive starred : list string -> list string -> Prop :=
| sd_end : starred [] []
| sd_star ts us : starred ts us -> starred ts ("*" :: us)
| sd_word t ts us vs : split_by_stars t us -> starred ts vs -> starred (t :: ts) (us ++ vs)%list.

(** No two neighbours are both words without punctuation. *)
Definition punctuation (t : string) : Prop := exists c, t = String c "" /\ punct c.
Fixpoint separated (ts : list string) : Prop :=
  match ts with
  | t :: ((u :: _) as ts') => (punctuation t \/ punctuation u) /\ separated ts'
  | _ => True
  end.
