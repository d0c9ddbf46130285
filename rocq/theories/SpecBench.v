(** * What the benchmarks mean: their commands over specification terms, and how large these are *)

From Verif Require Import Base ModelGctx ModelCommand ModelProcess ModelMain SpecTerm SpecConv SpecMake SpecProcess SpecProgram.

(** id.rs: [A] is 0, [id] is 1 *)
Definition id_tm (i : nat) : tm := Lam (Const 0) (Nat.iter i (App (Const 1)) (Var 0)).
Definition id_meaning (n : nat) : list (intro_ tm tm) :=
  IDeclaration false Typ :: IDefinition None (Some (Lam (Const 0) (Var 0))) :: map (fun i => IDefinition None (Some (id_tm i))) (seq 1 n).
(** prod_chain.rs: [a] is 0 *)
Definition prod_tm (i : nat) : tm := Nat.iter (i - 1) (Pi (Const 0)) (Const 0).
Definition prod_meaning (n : nat) : list (intro_ tm tm) := IDeclaration false Typ :: map (fun i => IDeclaration false (prod_tm i)) (seq 1 n).
(** abst_chain.rs: [a] is 0 *)
Definition abst_tm (i : nat) : tm := Nat.iter i (Lam (Const 0)) (Var 0).
Definition abst_meaning (n : nat) : list (intro_ tm tm) := IDeclaration false Typ :: map (fun i => IDefinition None (Some (abst_tm i))) (seq 1 n).
(** btree_app.rs: [a], [0], [p], [f] are 0 to 3 *)
Fixpoint btree_tm (n : nat) : tm := match n with 0 => Const 1 | S n => App (App (Const 3) (btree_tm n)) (btree_tm n) end.
Definition btree_meaning (n : nat) : list (intro_ tm tm) :=
  IDeclaration false Typ :: IDeclaration false (Const 0) :: IDeclaration false (Pi (Const 0) Typ) :: IDeclaration false (Pi (Const 0) (Pi (Const 0) (Const 0))) ::
  map (fun i => IDeclaration false (App (Const 2) (btree_tm (i + 1)))) (seq 0 n).
(** fst_snd.rs: [A], [fst], [snd] are 0 to 2 *)
Fixpoint fs_body (f n : nat) : tm := match n with 0 => App (App (Const f) (Var 1)) (Var 0) | S n => App (App (Const f) (fs_body 1 n)) (fs_body 2 n) end.
Definition lam2 (t : tm) : tm := Lam (Const 0) (Lam (Const 0) t).
Definition fs_meaning (n : nat) : list (intro_ tm tm) :=
  IDeclaration false Typ :: IDefinition None (Some (lam2 (Var 1))) :: IDefinition None (Some (lam2 (Var 0))) ::
  map (fun i => IDefinition None (Some (lam2 (fs_body 1 i)))) (seq 1 n).

(** the commands that introduce the constants [k], [k + 1], ... *)
Fixpoint intros_from (k : nat) (vs : list (intro_ tm tm)) : list vcmd :=
  match vs with [] => [] | v :: vs => VIntro k v :: intros_from (S k) vs end.

(** the number of subterms of [t] that are equal to [u] *)
Fixpoint occurs (u t : tm) : nat :=
  (if tm_eq_dec u t then 1 else 0) +
  match t with
  | App a b | Pi a b | Lam a b => occurs u a + occurs u b
  | ULam a => occurs u a
  | _ => 0
  end.
(** the number of abstractions *)
Fixpoint absts (t : tm) : nat :=
  match t with
  | App a b | Pi a b => absts a + absts b
  | Lam a b => 1 + absts a + absts b
  | ULam a => 1 + absts a
  | _ => 0
  end.

(** [text], in a file or on the standard input, stands for the commands [vs], and is accepted whatever is shared.
    Here [n] is the fuel, [junk] the lexer on characters that start no token, [O] the answers to questions about sharing. *)
Definition checks (text : str) (vs : list (intro_ tm tm)) : Prop :=
  forall junk eta O path m, module_of path m ->
  (exists cs, source_of junk (path, Some text) (m, cs) /\ elaborates [(m, cs)] (intros_from 0 vs)) /\
  exists n0, forall n, n0 <= n -> forall r, kocheck junk (real_kernel O n) (Opts eta None false) false [(path, Some text)] r <-> r = Ok tt.
