(** * The generators of benchmarks in examples/bench

    The programs print lines forever; the model gives what they have printed after [n] rounds of the loop.
    [println!] prints a newline (LF) at the end. *)

From Verif Require Import Base ModelShow.

Definition newl : str := ["010"%char].

(** examples/bench/id.rs:1-9 [id] *)
Fixpoint id_term (n : nat) : str :=
  match n with
  | 0 => $"x"
  | S n => $"(id " ++ id_term n ++ $")"
  end.
(** examples/bench/id.rs:15-19, the body of the loop *)
Definition id_line (i : nat) : str := $"def id" ++ nat_show i ++ $" (x : A) := " ++ id_term i ++ $"." ++ newl.
(** examples/bench/id.rs:12-20 [main] *)
Definition id_text (n : nat) : str := $"A : Type." ++ newl ++ $"def id (x : A) := x." ++ newl ++ flat_map id_line (seq 1 n).

(** examples/bench/prod_chain.rs:4-10, the body of the loop; lines 6-8 are the inner loop *)
Definition prod_line (i : nat) : str := $"a" ++ nat_show i ++ $" : a" ++ flat_map (fun _ => $" -> a") (seq 1 (i - 1)) ++ $"." ++ newl.
(** examples/bench/prod_chain.rs:2-11 [main] *)
Definition prod_text (n : nat) : str := $"a : Type." ++ newl ++ flat_map prod_line (seq 1 n).

(** examples/bench/abst_chain.rs:4-10, the body of the loop; lines 6-8 are the inner loop *)
Definition abst_line (i : nat) : str := $"def a" ++ nat_show i ++ $" := " ++ flat_map (fun _ => $"x : a => ") (seq 0 i) ++ $"x." ++ newl.
(** examples/bench/abst_chain.rs:2-11 [main] *)
Definition abst_text (n : nat) : str := $"a : Type." ++ newl ++ flat_map abst_line (seq 1 n).

(** examples/bench/btree_app.rs:15-24 [btree_app] *)
Fixpoint btree_term (n : nat) : str :=
  match n with
  | 0 => $" 0"
  | S n => $" (f" ++ btree_term n ++ btree_term n ++ $")"
  end.
(** examples/bench/btree_app.rs:8-12, the body of the loop *)
Definition btree_line (i : nat) : str := $"a" ++ nat_show i ++ $" : p" ++ btree_term (i + 1) ++ $"." ++ newl.
(** examples/bench/btree_app.rs:2-13 [main] *)
Definition btree_text (n : nat) : str :=
  $"a : Type." ++ newl ++ $"0 : a." ++ newl ++ $"p : a -> Type." ++ newl ++ $"f : a -> a -> a." ++ newl ++ flat_map btree_line (seq 0 n).

(** examples/bench/fst_snd.rs:1-11 [fs] *)
Fixpoint fs_term (f : str) (n : nat) : str :=
  match n with
  | 0 => f ++ $" x y"
  | S n => f ++ $" (" ++ fs_term ($"fst") n ++ $") (" ++ fs_term ($"snd") n ++ $")"
  end.
(** examples/bench/fst_snd.rs:18-22, the body of the loop *)
Definition fs_line (i : nat) : str := $"def fs" ++ nat_show i ++ $" (x : A) (y : A) := " ++ fs_term ($"fst") i ++ $"." ++ newl.
(** examples/bench/fst_snd.rs:14-23 [main] *)
Definition fs_text (n : nat) : str :=
  $"A : Type." ++ newl ++ $"def fst (x : A) (y : A) := x." ++ newl ++ $"def snd (x : A) (y : A) := y." ++ newl ++ flat_map fs_line (seq 1 n).
