(** * The example programs of the repository in the model

    The texts are those of [examples/], and the programs are put together as in [examples/kontroli.mk],
    [examples/sudoku/deps.mk] and [kontroli/benches/bench.rs]. *)

From Coq Require Import NArith.
From Verif Require Import Base ModelTerm ModelGctx ModelCommand ModelSyntax ModelLex ModelParse ModelMake ModelPath ModelSymbols ModelShare ModelProcess ModelMain
  Samples SamplesProcess SamplesParse SamplesProgram.


(** examples/bool.dk *)
Definition bool_dk : str := $"(; Booleans ;)

Bool : Type.
T : Bool.
F : Bool.

def and : Bool -> Bool -> Bool.
[] and F _ --> F
[] and _ F --> F
[] and T T --> T.

def or : Bool -> Bool -> Bool.
[] or T _ --> T
[] or _ T --> T
[] or F F --> F.

def not : Bool -> Bool.
[] not T --> F
[] not F --> T.

def iff : Bool -> Bool -> Bool.
[] iff T T --> T
[] iff T F --> F
[] iff F T --> F
[] iff F F --> T.

def imp : Bool -> Bool -> Bool.
[] imp F _ --> T
[] imp T T --> T
[] imp T F --> F.
".

(** examples/fo_imp.dk *)
Definition fo_imp_dk : str := $"prop: Type.
imp: prop -> prop -> prop.
def prf: prop -> Type.
[x: prop, y: prop] prf (imp x y) --> prf x -> prf y.
thm imp_refl (x: prop) : prf (imp x x) := p: prf x => p.
".

(** examples/magic.dk *)
Definition magic_dk : str := $"(; Adding additional arguments via rewriting, by Gaspard Ferey. ;)

N : Type.
0 : N.
S : N -> N.

A : Type.
List : N -> Type.

def magic : N -> N -> Type.
[n  ] magic n 0      -->  List n
[n,i] magic n (S i)  -->  A -> magic n i.
cons : n : N -> magic n n.

def checks
  : A -> A -> A -> List (S (S (S 0)))
  := cons (S (S (S 0))).

(;
def fails
  : A -> A -> A -> List (S (S (S 0)))
  := cons (S (S (0))).
;)
".

(** examples/nat.dk *)
Definition nat_dk : str := $"(; Natural numbers and elementary operations ;)

Nat : Type.
succ : Nat -> Nat.
0 : Nat.

def 1 := succ 0.
def 2 := succ 1.
def 3 := succ 2.
def 4 := succ 3.
def 5 := succ 4.
def 6 := succ 5.
def 7 := succ 6.
def 8 := succ 7.
def 9 := succ 8.

(; Addition ;)
def add : Nat -> Nat -> Nat.
[X] add 0 X --> X
[X, Y] add (succ X) Y --> succ (add X Y).

(; Multiplication ;)
def mul : Nat -> Nat -> Nat.
[X] mul 0 X --> 0
[X, Y] mul (succ X) Y --> add Y (mul X Y).

(; Exponentiation: exp x y = y^x ;)
def exp : Nat -> Nat -> Nat.
[X] exp 0 X --> 1
[X, Y] exp (succ X) Y --> mul Y (exp X Y).

(; Factorial ;)
def fac : Nat -> Nat.
[] fac 0 --> 1
[] fac (succ 0) --> 1
[X] fac (succ X) --> mul (succ X) (fac X).

(; Fibonacci ;)
def fib : Nat -> Nat.
[] fib 0 --> 0
[] fib (succ 0) --> 1
[X] fib (succ (succ X)) --> add (fib (succ X)) (fib X).

(; A dependent type used to check equality ;)
Dep : Nat -> Type.
dep : n : Nat -> Dep n.
".

(** examples/pure.dk *)
Definition pure_dk : str := $"Typ : Type.
def eta : _ : Typ -> Type.

(; theory Pure ;)
{|fun|type|} : _ : Typ -> _ : Typ -> Typ.
[a: Typ, b: Typ] eta ({|fun|type|} a b) --> _ : eta a -> eta b.
{|prop|type|} : Typ.
def eps : _ : eta {|prop|type|} -> Type.
{|itself|type|} : _ : Typ -> Typ.
{|dummy|type|} : Typ.
{|Pure.proof|type|} : Typ.
{|Pure.eq|const|} : {|'a|} : Typ -> eta ({|fun|type|} {|'a|} ({|fun|type|} {|'a|} {|prop|type|})).
{|Pure.imp|const|} : eta ({|fun|type|} {|prop|type|} ({|fun|type|} {|prop|type|} {|prop|type|})).
[a: eta {|prop|type|}, b: eta {|prop|type|}] eps ({|Pure.imp|const|} a b) --> _ : eps a -> eps b.
{|Pure.all|const|} : {|'a|} : Typ -> eta ({|fun|type|} ({|fun|type|} {|'a|} {|prop|type|}) {|prop|type|}).
[a: Typ, b: eta ({|fun|type|} a {|prop|type|})] eps ({|Pure.all|const|} a b) --> x : eta a -> eps (b x).
{|Pure.prop|const|} : eta ({|fun|type|} {|prop|type|} {|prop|type|}).
{|Pure.type|const|} : {|'a|} : Typ -> eta ({|itself|type|} {|'a|}).
{|Pure.dummy_pattern|const|} : {|'a|} : Typ -> eta {|'a|}.
{|Pure.Appt|const|} : {|'a|} : Typ -> eta ({|fun|type|} {|Pure.proof|type|} ({|fun|type|} {|'a|} {|Pure.proof|type|})).
{|Pure.AppP|const|} : eta ({|fun|type|} {|Pure.proof|type|} ({|fun|type|} {|Pure.proof|type|} {|Pure.proof|type|})).
{|Pure.Abst|const|} : {|'a|} : Typ -> eta ({|fun|type|} ({|fun|type|} {|'a|} {|Pure.proof|type|}) {|Pure.proof|type|}).
{|Pure.AbsP|const|} : eta ({|fun|type|} {|prop|type|} ({|fun|type|} ({|fun|type|} {|Pure.proof|type|} {|Pure.proof|type|}) {|Pure.proof|type|})).
{|Pure.Hyp|const|} : eta ({|fun|type|} {|prop|type|} {|Pure.proof|type|}).
{|Pure.Oracle|const|} : eta ({|fun|type|} {|prop|type|} {|Pure.proof|type|}).
{|Pure.OfClass|const|} : {|'a|} : Typ -> eta ({|fun|type|} ({|fun|type|} ({|itself|type|} {|'a|}) {|prop|type|}) {|Pure.proof|type|}).
{|Pure.MinProof|const|} : eta {|Pure.proof|type|}.
{|Pure.term|const|} : {|'a|} : Typ -> eta ({|fun|type|} {|'a|} {|prop|type|}).
{|Pure.sort_constraint|const|} : {|'a|} : Typ -> eta ({|fun|type|} ({|itself|type|} {|'a|}) {|prop|type|}).
{|Pure.conjunction|const|} : eta ({|fun|type|} {|prop|type|} ({|fun|type|} {|prop|type|} {|prop|type|})).
{|Pure.prop_def|axiom|} : A : eta {|prop|type|} -> eps ({|Pure.eq|const|} {|prop|type|} ({|Pure.prop|const|} A) A).
{|Pure.term_def|axiom|} : {|'a|} : Typ -> x : eta {|'a|} -> eps ({|Pure.eq|const|} {|prop|type|} ({|Pure.term|const|} {|'a|} x) ({|Pure.all|const|} {|prop|type|} (A : eta {|prop|type|} => {|Pure.imp|const|} A A))).
{|Pure.sort_constraint_def|axiom|} : {|'a|} : Typ -> eps ({|Pure.eq|const|} {|prop|type|} ({|Pure.sort_constraint|const|} {|'a|} ({|Pure.type|const|} {|'a|})) ({|Pure.term|const|} ({|itself|type|} {|'a|}) ({|Pure.type|const|} {|'a|}))).
{|Pure.conjunction_def|axiom|} : A : eta {|prop|type|} -> B : eta {|prop|type|} -> eps ({|Pure.eq|const|} {|prop|type|} ({|Pure.conjunction|const|} A B) ({|Pure.all|const|} {|prop|type|} (C : eta {|prop|type|} => {|Pure.imp|const|} ({|Pure.imp|const|} A ({|Pure.imp|const|} B C)) C))).
{|Pure.reflexive|axiom|} : {|'a|} : Typ -> x : eta {|'a|} -> eps ({|Pure.eq|const|} {|'a|} x x).
{|Pure.symmetric|axiom|} : {|'a|} : Typ -> x : eta {|'a|} -> y : eta {|'a|} -> eps ({|Pure.imp|const|} ({|Pure.eq|const|} {|'a|} x y) ({|Pure.eq|const|} {|'a|} y x)).
{|Pure.transitive|axiom|} : {|'a|} : Typ -> x : eta {|'a|} -> y : eta {|'a|} -> z : eta {|'a|} -> eps ({|Pure.imp|const|} ({|Pure.eq|const|} {|'a|} x y) ({|Pure.imp|const|} ({|Pure.eq|const|} {|'a|} y z) ({|Pure.eq|const|} {|'a|} x z))).
{|Pure.equal_intr|axiom|} : A : eta {|prop|type|} -> B : eta {|prop|type|} -> eps ({|Pure.imp|const|} ({|Pure.imp|const|} A B) ({|Pure.imp|const|} ({|Pure.imp|const|} B A) ({|Pure.eq|const|} {|prop|type|} A B))).
{|Pure.equal_elim|axiom|} : A : eta {|prop|type|} -> B : eta {|prop|type|} -> eps ({|Pure.imp|const|} ({|Pure.eq|const|} {|prop|type|} A B) ({|Pure.imp|const|} A B)).
{|Pure.abstract_rule|axiom|} : {|'a|} : Typ -> {|'b|} : Typ -> f : eta ({|fun|type|} {|'a|} {|'b|}) -> g : eta ({|fun|type|} {|'a|} {|'b|}) -> eps ({|Pure.imp|const|} ({|Pure.all|const|} {|'a|} (x : eta {|'a|} => {|Pure.eq|const|} {|'b|} (f x) (g x))) ({|Pure.eq|const|} ({|fun|type|} {|'a|} {|'b|}) (x : eta {|'a|} => f x) (x : eta {|'a|} => g x))).
{|Pure.combination|axiom|} : {|'a|} : Typ -> {|'b|} : Typ -> f : eta ({|fun|type|} {|'a|} {|'b|}) -> g : eta ({|fun|type|} {|'a|} {|'b|}) -> x : eta {|'a|} -> y : eta {|'a|} -> eps ({|Pure.imp|const|} ({|Pure.eq|const|} ({|fun|type|} {|'a|} {|'b|}) f g) ({|Pure.imp|const|} ({|Pure.eq|const|} {|'a|} x y) ({|Pure.eq|const|} {|'b|} (f x) (g y)))).
thm {|Pure.prop_def|thm|} : A : eta {|prop|type|} -> eps ({|Pure.eq|const|} {|prop|type|} ({|Pure.prop|const|} A) A) := A : eta {|prop|type|} => {|Pure.prop_def|axiom|} A.
thm {|Pure.term_def|thm|} : {|'a|} : Typ -> x : eta {|'a|} -> eps ({|Pure.eq|const|} {|prop|type|} ({|Pure.term|const|} {|'a|} x) ({|Pure.all|const|} {|prop|type|} (A : eta {|prop|type|} => {|Pure.imp|const|} A A))) := {|'a|} : Typ => x : eta {|'a|} => {|Pure.term_def|axiom|} {|'a|} x.
thm {|Pure.sort_constraint_def|thm|} : {|'a|} : Typ -> eps ({|Pure.eq|const|} {|prop|type|} ({|Pure.sort_constraint|const|} {|'a|} ({|Pure.type|const|} {|'a|})) ({|Pure.term|const|} ({|itself|type|} {|'a|}) ({|Pure.type|const|} {|'a|}))) := {|'a|} : Typ => {|Pure.sort_constraint_def|axiom|} {|'a|}.
thm {|Pure.conjunction_def|thm|} : A : eta {|prop|type|} -> B : eta {|prop|type|} -> eps ({|Pure.eq|const|} {|prop|type|} ({|Pure.conjunction|const|} A B) ({|Pure.all|const|} {|prop|type|} (C : eta {|prop|type|} => {|Pure.imp|const|} ({|Pure.imp|const|} A ({|Pure.imp|const|} B C)) C))) := A : eta {|prop|type|} => B : eta {|prop|type|} => {|Pure.conjunction_def|axiom|} A B.
thm {|Pure.protectI|thm|} : A : eta {|prop|type|} -> eps ({|Pure.imp|const|} A ({|Pure.prop|const|} A)) := A : eta {|prop|type|} => {|Pure.equal_elim|axiom|} A ({|Pure.prop|const|} A) ({|Pure.symmetric|axiom|} {|prop|type|} ({|Pure.prop|const|} A) A ({|Pure.prop_def|axiom|} A)).
thm {|Pure.protectD|thm|} : A : eta {|prop|type|} -> eps ({|Pure.imp|const|} ({|Pure.prop|const|} A) A) := A : eta {|prop|type|} => {|Pure.equal_elim|axiom|} ({|Pure.prop|const|} A) A ({|Pure.prop_def|axiom|} A).
thm {|Pure.termI|thm|} : {|'a|} : Typ -> x : eta {|'a|} -> eps ({|Pure.term|const|} {|'a|} x) := {|'a|} : Typ => x : eta {|'a|} => {|Pure.equal_elim|axiom|} ({|Pure.all|const|} {|prop|type|} (A : eta {|prop|type|} => {|Pure.imp|const|} A A)) ({|Pure.term|const|} {|'a|} x) ({|Pure.symmetric|axiom|} {|prop|type|} ({|Pure.term|const|} {|'a|} x) ({|Pure.all|const|} {|prop|type|} (A : eta {|prop|type|} => {|Pure.imp|const|} A A)) ({|Pure.term_def|axiom|} {|'a|} x)) (A : eta {|prop|type|} => H : eps A => H).
thm proof628 : {|'a|} : Typ -> x : eta {|'a|} -> eps ({|Pure.term|const|} {|'a|} x) := {|'a|} : Typ => x : eta {|'a|} => {|Pure.equal_elim|axiom|} ({|Pure.all|const|} {|prop|type|} (A : eta {|prop|type|} => {|Pure.imp|const|} A A)) ({|Pure.term|const|} {|'a|} x) ({|Pure.symmetric|axiom|} {|prop|type|} ({|Pure.term|const|} {|'a|} x) ({|Pure.all|const|} {|prop|type|} (A : eta {|prop|type|} => {|Pure.imp|const|} A A)) ({|Pure.term_def|axiom|} {|'a|} x)) (A : eta {|prop|type|} => H : eps A => H).
thm proof630 : {|'a|} : Typ -> x : eta {|'a|} -> eps ({|Pure.term|const|} {|'a|} x) := {|'a|} : Typ => x : eta {|'a|} => proof628 {|'a|} x.
thm proof632 : {|'a|} : Typ -> x : eta {|'a|} -> eps ({|Pure.term|const|} {|'a|} x) := {|'a|} : Typ => x : eta {|'a|} => proof630 {|'a|} x.
thm {|Pure.sort_constraintI|thm|} : {|'a|} : Typ -> eps ({|Pure.sort_constraint|const|} {|'a|} ({|Pure.type|const|} {|'a|})) := {|'a|} : Typ => {|Pure.equal_elim|axiom|} ({|Pure.term|const|} ({|itself|type|} {|'a|}) ({|Pure.type|const|} {|'a|})) ({|Pure.sort_constraint|const|} {|'a|} ({|Pure.type|const|} {|'a|})) ({|Pure.symmetric|axiom|} {|prop|type|} ({|Pure.sort_constraint|const|} {|'a|} ({|Pure.type|const|} {|'a|})) ({|Pure.term|const|} ({|itself|type|} {|'a|}) ({|Pure.type|const|} {|'a|})) ({|Pure.sort_constraint_def|axiom|} {|'a|})) ({|Pure.termI|thm|} ({|itself|type|} {|'a|}) ({|Pure.type|const|} {|'a|})).
thm proof640 : {|'a|} : Typ -> eps ({|Pure.sort_constraint|const|} {|'a|} ({|Pure.type|const|} {|'a|})) := {|'a|} : Typ => {|Pure.equal_elim|axiom|} ({|Pure.term|const|} ({|itself|type|} {|'a|}) ({|Pure.type|const|} {|'a|})) ({|Pure.sort_constraint|const|} {|'a|} ({|Pure.type|const|} {|'a|})) ({|Pure.symmetric|axiom|} {|prop|type|} ({|Pure.sort_constraint|const|} {|'a|} ({|Pure.type|const|} {|'a|})) ({|Pure.term|const|} ({|itself|type|} {|'a|}) ({|Pure.type|const|} {|'a|})) ({|Pure.sort_constraint_def|axiom|} {|'a|})) (proof632 ({|itself|type|} {|'a|}) ({|Pure.type|const|} {|'a|})).
thm proof642 : {|'a|} : Typ -> eps ({|Pure.sort_constraint|const|} {|'a|} ({|Pure.type|const|} {|'a|})) := {|'a|} : Typ => proof640 {|'a|}.
thm proof644 : {|'a|} : Typ -> eps ({|Pure.sort_constraint|const|} {|'a|} ({|Pure.type|const|} {|'a|})) := {|'a|} : Typ => proof642 {|'a|}.
thm {|Pure.sort_constraint_eq|thm|} : {|'a|} : Typ -> A : eta {|prop|type|} -> eps ({|Pure.eq|const|} {|prop|type|} ({|Pure.imp|const|} ({|Pure.sort_constraint|const|} {|'a|} ({|Pure.type|const|} {|'a|})) A) A) := {|'a|} : Typ => A : eta {|prop|type|} => {|Pure.equal_intr|axiom|} ({|Pure.imp|const|} ({|Pure.sort_constraint|const|} {|'a|} ({|Pure.type|const|} {|'a|})) A) A (H : eps ({|Pure.imp|const|} ({|Pure.sort_constraint|const|} {|'a|} ({|Pure.type|const|} {|'a|})) A) => H ({|Pure.sort_constraintI|thm|} {|'a|})) (H : eps A => Ha : eps ({|Pure.sort_constraint|const|} {|'a|} ({|Pure.type|const|} {|'a|})) => H).
thm {|Pure.conjunctionD1|thm|} : A : eta {|prop|type|} -> B : eta {|prop|type|} -> eps ({|Pure.imp|const|} ({|Pure.conjunction|const|} A B) A) := A : eta {|prop|type|} => B : eta {|prop|type|} => H : eps ({|Pure.conjunction|const|} A B) => {|Pure.equal_elim|axiom|} ({|Pure.conjunction|const|} A B) ({|Pure.all|const|} {|prop|type|} (C : eta {|prop|type|} => {|Pure.imp|const|} ({|Pure.imp|const|} A ({|Pure.imp|const|} B C)) C)) ({|Pure.conjunction_def|axiom|} A B) H A (Ha : eps A => Hb : eps B => Ha).
thm {|Pure.conjunctionD2|thm|} : A : eta {|prop|type|} -> B : eta {|prop|type|} -> eps ({|Pure.imp|const|} ({|Pure.conjunction|const|} A B) B) := A : eta {|prop|type|} => B : eta {|prop|type|} => H : eps ({|Pure.conjunction|const|} A B) => {|Pure.equal_elim|axiom|} ({|Pure.conjunction|const|} A B) ({|Pure.all|const|} {|prop|type|} (C : eta {|prop|type|} => {|Pure.imp|const|} ({|Pure.imp|const|} A ({|Pure.imp|const|} B C)) C)) ({|Pure.conjunction_def|axiom|} A B) H B (Ha : eps A => Hb : eps B => Hb).
thm {|Pure.conjunctionI|thm|} : A : eta {|prop|type|} -> B : eta {|prop|type|} -> eps ({|Pure.imp|const|} A ({|Pure.imp|const|} B ({|Pure.conjunction|const|} A B))) := A : eta {|prop|type|} => B : eta {|prop|type|} => H : eps A => Ha : eps B => {|Pure.equal_elim|axiom|} ({|Pure.all|const|} {|prop|type|} (C : eta {|prop|type|} => {|Pure.imp|const|} ({|Pure.imp|const|} A ({|Pure.imp|const|} B C)) C)) ({|Pure.conjunction|const|} A B) ({|Pure.symmetric|axiom|} {|prop|type|} ({|Pure.conjunction|const|} A B) ({|Pure.all|const|} {|prop|type|} (C : eta {|prop|type|} => {|Pure.imp|const|} ({|Pure.imp|const|} A ({|Pure.imp|const|} B C)) C)) ({|Pure.conjunction_def|axiom|} A B)) (C : eta {|prop|type|} => Hb : eps ({|Pure.imp|const|} A ({|Pure.imp|const|} B C)) => Hb H Ha).
thm {|Pure.meta_mp|thm|} : P : eta {|prop|type|} -> Q : eta {|prop|type|} -> eps ({|Pure.imp|const|} ({|Pure.imp|const|} P Q) ({|Pure.imp|const|} P Q)) := P : eta {|prop|type|} => Q : eta {|prop|type|} => H : eps ({|Pure.imp|const|} P Q) => H.
thm proof598 : A : eta {|prop|type|} -> eps ({|Pure.imp|const|} A ({|Pure.prop|const|} A)) := A : eta {|prop|type|} => {|Pure.equal_elim|axiom|} A ({|Pure.prop|const|} A) ({|Pure.symmetric|axiom|} {|prop|type|} ({|Pure.prop|const|} A) A ({|Pure.prop_def|axiom|} A)).
thm proof600 : A : eta {|prop|type|} -> eps ({|Pure.imp|const|} A ({|Pure.prop|const|} A)) := A : eta {|prop|type|} => proof598 A.
thm proof602 : A : eta {|prop|type|} -> eps ({|Pure.imp|const|} A ({|Pure.prop|const|} A)) := A : eta {|prop|type|} => proof600 A.
thm proof610 : A : eta {|prop|type|} -> eps ({|Pure.imp|const|} ({|Pure.prop|const|} A) A) := A : eta {|prop|type|} => {|Pure.equal_elim|axiom|} ({|Pure.prop|const|} A) A ({|Pure.prop_def|axiom|} A).
thm proof612 : A : eta {|prop|type|} -> eps ({|Pure.imp|const|} ({|Pure.prop|const|} A) A) := A : eta {|prop|type|} => proof610 A.
thm proof614 : A : eta {|prop|type|} -> eps ({|Pure.imp|const|} ({|Pure.prop|const|} A) A) := A : eta {|prop|type|} => proof612 A.
thm proof41928 : P : eta {|prop|type|} -> Q : eta {|prop|type|} -> eps ({|Pure.imp|const|} ({|Pure.imp|const|} P Q) ({|Pure.imp|const|} P Q)) := P : eta {|prop|type|} => Q : eta {|prop|type|} => H : eps ({|Pure.imp|const|} P Q) => H.
thm proof41930 : P : eta {|prop|type|} -> eps ({|Pure.imp|const|} P P) := P : eta {|prop|type|} => H : eps P => H.
thm proof41932 : P : eta {|prop|type|} -> Q : eta {|prop|type|} -> eps ({|Pure.imp|const|} P ({|Pure.imp|const|} ({|Pure.imp|const|} P Q) ({|Pure.prop|const|} Q))) := P : eta {|prop|type|} => Q : eta {|prop|type|} => H : eps P => Ha : eps ({|Pure.imp|const|} P Q) => proof602 Q (proof41928 P Q Ha (proof41930 P H)).
thm proof41934 : P : eta {|prop|type|} -> Q : eta {|prop|type|} -> eps ({|Pure.imp|const|} ({|Pure.imp|const|} P Q) ({|Pure.imp|const|} P Q)) := P : eta {|prop|type|} => Q : eta {|prop|type|} => H : eps ({|Pure.imp|const|} P Q) => Ha : eps P => proof614 Q (proof41932 P Q Ha H).
thm proof41938 : P : eta {|prop|type|} -> Q : eta {|prop|type|} -> eps ({|Pure.imp|const|} ({|Pure.imp|const|} P Q) ({|Pure.imp|const|} P Q)) := P : eta {|prop|type|} => Q : eta {|prop|type|} => proof41934 P Q.
thm {|Pure.meta_impE|thm|} : P : eta {|prop|type|} -> V : eta {|prop|type|} -> W : eta {|prop|type|} -> eps ({|Pure.imp|const|} ({|Pure.imp|const|} P V) ({|Pure.imp|const|} P ({|Pure.imp|const|} ({|Pure.imp|const|} V W) W))) := P : eta {|prop|type|} => V : eta {|prop|type|} => W : eta {|prop|type|} => H : eps ({|Pure.imp|const|} P V) => Ha : eps P => Hb : eps ({|Pure.imp|const|} V W) => Hb ({|Pure.meta_mp|thm|} P V H Ha).
thm {|Pure.meta_spec|thm|} : {|'a|} : Typ -> P : eta ({|fun|type|} {|'a|} {|prop|type|}) -> x : eta {|'a|} -> eps ({|Pure.imp|const|} ({|Pure.all|const|} {|'a|} (x : eta {|'a|} => P x)) (P x)) := {|'a|} : Typ => P : eta ({|fun|type|} {|'a|} {|prop|type|}) => x : eta {|'a|} => H : eps ({|Pure.all|const|} {|'a|} (x : eta {|'a|} => P x)) => H x.
thm proof42020 : {|'a|} : Typ -> P : eta ({|fun|type|} {|'a|} {|prop|type|}) -> eps ({|Pure.imp|const|} ({|Pure.all|const|} {|'a|} (x : eta {|'a|} => P x)) ({|Pure.all|const|} {|'a|} (x : eta {|'a|} => P x))) := {|'a|} : Typ => P : eta ({|fun|type|} {|'a|} {|prop|type|}) => H : eps ({|Pure.all|const|} {|'a|} (x : eta {|'a|} => P x)) => H.
thm proof42022 : {|'a|} : Typ -> P : eta ({|fun|type|} {|'a|} {|prop|type|}) -> x : eta {|'a|} -> eps ({|Pure.imp|const|} ({|Pure.all|const|} {|'a|} (x : eta {|'a|} => P x)) ({|Pure.prop|const|} (P x))) := {|'a|} : Typ => P : eta ({|fun|type|} {|'a|} {|prop|type|}) => x : eta {|'a|} => H : eps ({|Pure.all|const|} {|'a|} (x : eta {|'a|} => P x)) => proof602 (P x) (proof42020 {|'a|} P H x).
thm proof42024 : {|'a|} : Typ -> P : eta ({|fun|type|} {|'a|} {|prop|type|}) -> x : eta {|'a|} -> eps ({|Pure.imp|const|} ({|Pure.all|const|} {|'a|} (x : eta {|'a|} => P x)) (P x)) := {|'a|} : Typ => P : eta ({|fun|type|} {|'a|} {|prop|type|}) => x : eta {|'a|} => H : eps ({|Pure.all|const|} {|'a|} (x : eta {|'a|} => P x)) => proof614 (P x) (proof42022 {|'a|} P x H).
thm proof42028 : {|'a|} : Typ -> P : eta ({|fun|type|} {|'a|} {|prop|type|}) -> x : eta {|'a|} -> eps ({|Pure.imp|const|} ({|Pure.all|const|} {|'a|} (x : eta {|'a|} => P x)) (P x)) := {|'a|} : Typ => P : eta ({|fun|type|} {|'a|} {|prop|type|}) => x : eta {|'a|} => proof42024 {|'a|} P x.
thm {|Pure.meta_allE|thm|} : {|'a|} : Typ -> P : eta ({|fun|type|} {|'a|} {|prop|type|}) -> x : eta {|'a|} -> W : eta {|prop|type|} -> eps ({|Pure.imp|const|} ({|Pure.all|const|} {|'a|} (x : eta {|'a|} => P x)) ({|Pure.imp|const|} ({|Pure.imp|const|} (P x) W) W)) := {|'a|} : Typ => P : eta ({|fun|type|} {|'a|} {|prop|type|}) => x : eta {|'a|} => W : eta {|prop|type|} => H : eps ({|Pure.all|const|} {|'a|} (x : eta {|'a|} => P x)) => Ha : eps ({|Pure.imp|const|} (P x) W) => Ha ({|Pure.meta_spec|thm|} {|'a|} P x H).
thm {|Pure.swap_params|thm|} : {|'a|} : Typ -> {|'b|} : Typ -> P : eta ({|fun|type|} {|'a|} ({|fun|type|} {|'b|} {|prop|type|})) -> eps ({|Pure.eq|const|} {|prop|type|} ({|Pure.all|const|} {|'a|} (x : eta {|'a|} => {|Pure.all|const|} {|'b|} (y : eta {|'b|} => P x y))) ({|Pure.all|const|} {|'b|} (y : eta {|'b|} => {|Pure.all|const|} {|'a|} (x : eta {|'a|} => P x y)))) := {|'a|} : Typ => {|'b|} : Typ => P : eta ({|fun|type|} {|'a|} ({|fun|type|} {|'b|} {|prop|type|})) => {|Pure.equal_intr|axiom|} ({|Pure.all|const|} {|'a|} (x : eta {|'a|} => {|Pure.all|const|} {|'b|} (y : eta {|'b|} => (xa : eta {|'a|} => ya : eta {|'b|} => (xb : eta {|'a|} => yb : eta {|'b|} => (xc : eta {|'a|} => yc : eta {|'b|} => P xc yc) xb yb) xa ya) x y))) ({|Pure.all|const|} {|'b|} (y : eta {|'b|} => {|Pure.all|const|} {|'a|} (x : eta {|'a|} => (xa : eta {|'a|} => ya : eta {|'b|} => (xb : eta {|'a|} => yb : eta {|'b|} => (xc : eta {|'a|} => yc : eta {|'b|} => P xc yc) xb yb) xa ya) x y))) (H : eps ({|Pure.all|const|} {|'a|} (a : eta {|'a|} => {|Pure.all|const|} {|'b|} (y : eta {|'b|} => (x : eta {|'a|} => ya : eta {|'b|} => (xa : eta {|'a|} => yb : eta {|'b|} => (xb : eta {|'a|} => yc : eta {|'b|} => P xb yc) xa yb) x ya) a y))) => y : eta {|'b|} => x : eta {|'a|} => H x y) (H : eps ({|Pure.all|const|} {|'b|} (a : eta {|'b|} => {|Pure.all|const|} {|'a|} (x : eta {|'a|} => (xa : eta {|'a|} => y : eta {|'b|} => (xb : eta {|'a|} => ya : eta {|'b|} => (xc : eta {|'a|} => yb : eta {|'b|} => P xc yb) xb ya) xa y) x a))) => x : eta {|'a|} => y : eta {|'b|} => H y x).
thm proof696 : A : eta {|prop|type|} -> B : eta {|prop|type|} -> eps ({|Pure.imp|const|} ({|Pure.conjunction|const|} A B) A) := A : eta {|prop|type|} => B : eta {|prop|type|} => H : eps ({|Pure.conjunction|const|} A B) => {|Pure.equal_elim|axiom|} ({|Pure.conjunction|const|} A B) ({|Pure.all|const|} {|prop|type|} (C : eta {|prop|type|} => {|Pure.imp|const|} ({|Pure.imp|const|} A ({|Pure.imp|const|} B C)) C)) ({|Pure.conjunction_def|axiom|} A B) H A (Ha : eps A => Hb : eps B => Ha).
thm proof698 : A : eta {|prop|type|} -> B : eta {|prop|type|} -> eps ({|Pure.imp|const|} ({|Pure.conjunction|const|} A B) A) := A : eta {|prop|type|} => B : eta {|prop|type|} => proof696 A B.
thm proof700 : A : eta {|prop|type|} -> B : eta {|prop|type|} -> eps ({|Pure.imp|const|} ({|Pure.conjunction|const|} A B) A) := A : eta {|prop|type|} => B : eta {|prop|type|} => proof698 A B.
thm proof708 : A : eta {|prop|type|} -> B : eta {|prop|type|} -> eps ({|Pure.imp|const|} ({|Pure.conjunction|const|} A B) B) := A : eta {|prop|type|} => B : eta {|prop|type|} => H : eps ({|Pure.conjunction|const|} A B) => {|Pure.equal_elim|axiom|} ({|Pure.conjunction|const|} A B) ({|Pure.all|const|} {|prop|type|} (C : eta {|prop|type|} => {|Pure.imp|const|} ({|Pure.imp|const|} A ({|Pure.imp|const|} B C)) C)) ({|Pure.conjunction_def|axiom|} A B) H B (Ha : eps A => Hb : eps B => Hb).
thm proof710 : A : eta {|prop|type|} -> B : eta {|prop|type|} -> eps ({|Pure.imp|const|} ({|Pure.conjunction|const|} A B) B) := A : eta {|prop|type|} => B : eta {|prop|type|} => proof708 A B.
thm proof712 : A : eta {|prop|type|} -> B : eta {|prop|type|} -> eps ({|Pure.imp|const|} ({|Pure.conjunction|const|} A B) B) := A : eta {|prop|type|} => B : eta {|prop|type|} => proof710 A B.
thm proof720 : A : eta {|prop|type|} -> B : eta {|prop|type|} -> eps ({|Pure.imp|const|} A ({|Pure.imp|const|} B ({|Pure.conjunction|const|} A B))) := A : eta {|prop|type|} => B : eta {|prop|type|} => H : eps A => Ha : eps B => {|Pure.equal_elim|axiom|} ({|Pure.all|const|} {|prop|type|} (C : eta {|prop|type|} => {|Pure.imp|const|} ({|Pure.imp|const|} A ({|Pure.imp|const|} B C)) C)) ({|Pure.conjunction|const|} A B) ({|Pure.symmetric|axiom|} {|prop|type|} ({|Pure.conjunction|const|} A B) ({|Pure.all|const|} {|prop|type|} (C : eta {|prop|type|} => {|Pure.imp|const|} ({|Pure.imp|const|} A ({|Pure.imp|const|} B C)) C)) ({|Pure.conjunction_def|axiom|} A B)) (C : eta {|prop|type|} => Hb : eps ({|Pure.imp|const|} A ({|Pure.imp|const|} B C)) => Hb H Ha).
thm proof722 : A : eta {|prop|type|} -> B : eta {|prop|type|} -> eps ({|Pure.imp|const|} A ({|Pure.imp|const|} B ({|Pure.conjunction|const|} A B))) := A : eta {|prop|type|} => B : eta {|prop|type|} => proof720 A B.
thm proof724 : A : eta {|prop|type|} -> B : eta {|prop|type|} -> eps ({|Pure.imp|const|} A ({|Pure.imp|const|} B ({|Pure.conjunction|const|} A B))) := A : eta {|prop|type|} => B : eta {|prop|type|} => proof722 A B.
thm {|Pure.all_conjunction|thm|} : {|'a|} : Typ -> A : eta ({|fun|type|} {|'a|} {|prop|type|}) -> B : eta ({|fun|type|} {|'a|} {|prop|type|}) -> eps ({|Pure.eq|const|} {|prop|type|} ({|Pure.all|const|} {|'a|} (x : eta {|'a|} => {|Pure.conjunction|const|} (A x) (B x))) ({|Pure.conjunction|const|} ({|Pure.all|const|} {|'a|} (x : eta {|'a|} => A x)) ({|Pure.all|const|} {|'a|} (x : eta {|'a|} => B x)))) := {|'a|} : Typ => A : eta ({|fun|type|} {|'a|} {|prop|type|}) => B : eta ({|fun|type|} {|'a|} {|prop|type|}) => {|Pure.equal_intr|axiom|} ({|Pure.all|const|} {|'a|} (x : eta {|'a|} => {|Pure.conjunction|const|} ((xa : eta {|'a|} => (xb : eta {|'a|} => (xc : eta {|'a|} => A xc) xb) xa) x) ((xa : eta {|'a|} => (xb : eta {|'a|} => (xc : eta {|'a|} => B xc) xb) xa) x))) ({|Pure.conjunction|const|} ({|Pure.all|const|} {|'a|} (x : eta {|'a|} => (xa : eta {|'a|} => (xb : eta {|'a|} => (xc : eta {|'a|} => A xc) xb) xa) x)) ({|Pure.all|const|} {|'a|} (x : eta {|'a|} => (xa : eta {|'a|} => (xb : eta {|'a|} => (xc : eta {|'a|} => B xc) xb) xa) x))) (H : eps ({|Pure.all|const|} {|'a|} (x : eta {|'a|} => {|Pure.conjunction|const|} ((xa : eta {|'a|} => (xb : eta {|'a|} => (xc : eta {|'a|} => A xc) xb) xa) x) ((xa : eta {|'a|} => (xb : eta {|'a|} => (xc : eta {|'a|} => B xc) xb) xa) x))) => {|Pure.conjunctionI|thm|} ({|Pure.all|const|} {|'a|} (x : eta {|'a|} => (xa : eta {|'a|} => (xb : eta {|'a|} => (xc : eta {|'a|} => A xc) xb) xa) x)) ({|Pure.all|const|} {|'a|} (x : eta {|'a|} => (xa : eta {|'a|} => (xb : eta {|'a|} => (xc : eta {|'a|} => B xc) xb) xa) x)) (x : eta {|'a|} => {|Pure.conjunctionD1|thm|} ((xa : eta {|'a|} => (xb : eta {|'a|} => (xc : eta {|'a|} => A xc) xb) xa) x) ((xa : eta {|'a|} => (xb : eta {|'a|} => (xc : eta {|'a|} => B xc) xb) xa) x) (H x)) (x : eta {|'a|} => {|Pure.conjunctionD2|thm|} ((xa : eta {|'a|} => (xb : eta {|'a|} => (xc : eta {|'a|} => A xc) xb) xa) x) ((xa : eta {|'a|} => (xb : eta {|'a|} => (xc : eta {|'a|} => B xc) xb) xa) x) (H x))) (H : eps ({|Pure.conjunction|const|} ({|Pure.all|const|} {|'a|} (x : eta {|'a|} => (xa : eta {|'a|} => (xb : eta {|'a|} => (xc : eta {|'a|} => A xc) xb) xa) x)) ({|Pure.all|const|} {|'a|} (x : eta {|'a|} => (xa : eta {|'a|} => (xb : eta {|'a|} => (xc : eta {|'a|} => B xc) xb) xa) x))) => x : eta {|'a|} => {|Pure.conjunctionI|thm|} ((xa : eta {|'a|} => (xb : eta {|'a|} => (xc : eta {|'a|} => A xc) xb) xa) x) ((xa : eta {|'a|} => (xb : eta {|'a|} => (xc : eta {|'a|} => B xc) xb) xa) x) ({|Pure.conjunctionD1|thm|} ({|Pure.all|const|} {|'a|} (xa : eta {|'a|} => (xb : eta {|'a|} => (xc : eta {|'a|} => (xd : eta {|'a|} => A xd) xc) xb) xa)) ({|Pure.all|const|} {|'a|} (xa : eta {|'a|} => (xb : eta {|'a|} => (xc : eta {|'a|} => (xd : eta {|'a|} => B xd) xc) xb) xa)) H x) ({|Pure.conjunctionD2|thm|} ({|Pure.all|const|} {|'a|} (xa : eta {|'a|} => (xb : eta {|'a|} => (xc : eta {|'a|} => (xd : eta {|'a|} => A xd) xc) xb) xa)) ({|Pure.all|const|} {|'a|} (xa : eta {|'a|} => (xb : eta {|'a|} => (xc : eta {|'a|} => (xd : eta {|'a|} => B xd) xc) xb) xa)) H x)).
thm {|Pure.imp_conjunction|thm|} : A : eta {|prop|type|} -> B : eta {|prop|type|} -> C : eta {|prop|type|} -> eps ({|Pure.eq|const|} {|prop|type|} ({|Pure.imp|const|} A ({|Pure.conjunction|const|} B C)) ({|Pure.conjunction|const|} ({|Pure.imp|const|} A B) ({|Pure.imp|const|} A C))) := A : eta {|prop|type|} => B : eta {|prop|type|} => C : eta {|prop|type|} => {|Pure.equal_intr|axiom|} ({|Pure.imp|const|} A ({|Pure.conjunction|const|} B C)) ({|Pure.conjunction|const|} ({|Pure.imp|const|} A B) ({|Pure.imp|const|} A C)) (H : eps ({|Pure.imp|const|} A ({|Pure.conjunction|const|} B C)) => {|Pure.conjunctionI|thm|} ({|Pure.imp|const|} A B) ({|Pure.imp|const|} A C) (Ha : eps A => {|Pure.conjunctionD1|thm|} B C (H Ha)) (Ha : eps A => {|Pure.conjunctionD2|thm|} B C (H Ha))) (H : eps ({|Pure.conjunction|const|} ({|Pure.imp|const|} A B) ({|Pure.imp|const|} A C)) => Ha : eps A => {|Pure.conjunctionI|thm|} B C ({|Pure.conjunctionD1|thm|} ({|Pure.imp|const|} A B) ({|Pure.imp|const|} A C) H Ha) ({|Pure.conjunctionD2|thm|} ({|Pure.imp|const|} A B) ({|Pure.imp|const|} A C) H Ha)).
thm {|Pure.conjunction_imp|thm|} : A : eta {|prop|type|} -> B : eta {|prop|type|} -> C : eta {|prop|type|} -> eps ({|Pure.eq|const|} {|prop|type|} ({|Pure.imp|const|} ({|Pure.conjunction|const|} A B) C) ({|Pure.imp|const|} A ({|Pure.imp|const|} B C))) := A : eta {|prop|type|} => B : eta {|prop|type|} => C : eta {|prop|type|} => {|Pure.equal_intr|axiom|} ({|Pure.imp|const|} ({|Pure.conjunction|const|} A B) C) ({|Pure.imp|const|} A ({|Pure.imp|const|} B C)) (H : eps ({|Pure.imp|const|} ({|Pure.conjunction|const|} A B) C) => Ha : eps A => Hb : eps B => H ({|Pure.conjunctionI|thm|} A B Ha Hb)) (H : eps ({|Pure.imp|const|} A ({|Pure.imp|const|} B C)) => Ha : eps ({|Pure.conjunction|const|} A B) => H ({|Pure.conjunctionD1|thm|} A B Ha) ({|Pure.conjunctionD2|thm|} A B Ha)).
".

(** examples/bench/or_n.dk *)
Definition or_n_dk : str := $"def or_n : Nat -> Bool.
[N] or_n (succ N) --> or (or_n N) (or_n N).
[ ] or_n 0        --> F.

Bool_Dep : Bool -> Type.
bool_dep : b : Bool -> Bool_Dep b.
".

(** examples/bench/inf.dk *)
Definition inf_dk : str := $"(; depends on nat.ko ;)

def inf : Nat.
[] inf --> succ inf.

def to_zero : Nat -> Nat.
[X] to_zero (succ X) --> to_zero X.

def does_not_terminate :
  Dep (to_zero inf) :=
  dep (to_zero (succ inf)).
".

(** examples/sudoku/sudoku.dk *)
Definition sudoku_dk : str := $"(; Sudoku solver, originally written by Gaspard Ferey and François Thiré ;)

Ind : Type.
1 : Ind.
2 : Ind.
3 : Ind.
4 : Ind.
5 : Ind.
6 : Ind.
7 : Ind.
8 : Ind.
9 : Ind.
X : Ind.

def S : Ind -> Ind.
[] S 1 --> 2
[] S 2 --> 3
[] S 3 --> 4
[] S 4 --> 5
[] S 5 --> 6
[] S 6 --> 7
[] S 7 --> 8
[] S 8 --> 9
[] S 9 --> X.

def trunc3 : Ind -> Ind.
[]  trunc3 1 --> 1
[]  trunc3 2 --> 1
[]  trunc3 3 --> 1
[]  trunc3 4 --> 4
[]  trunc3 5 --> 4
[]  trunc3 6 --> 4
[]  trunc3 7 --> 7
[]  trunc3 8 --> 7
[]  trunc3 9 --> 7.


def eq : Ind -> Ind -> Bool.
[x]   eq x x --> T
[x,y] eq x y --> F.




Line : Type.
l : Ind -> Ind -> Ind -> Ind -> Ind -> Ind -> Ind -> Ind -> Ind -> Line.

def Sudo : Type.
def c : Line -> Line -> Line -> Line -> Line -> Line -> Line -> Line -> Line -> Sudo.

def getl : Ind -> Line -> Ind.
[x] getl 1 (l x _ _ _ _ _ _ _ _) --> x
[x] getl 2 (l _ x _ _ _ _ _ _ _) --> x
[x] getl 3 (l _ _ x _ _ _ _ _ _) --> x
[x] getl 4 (l _ _ _ x _ _ _ _ _) --> x
[x] getl 5 (l _ _ _ _ x _ _ _ _) --> x
[x] getl 6 (l _ _ _ _ _ x _ _ _) --> x
[x] getl 7 (l _ _ _ _ _ _ x _ _) --> x
[x] getl 8 (l _ _ _ _ _ _ _ x _) --> x
[x] getl 9 (l _ _ _ _ _ _ _ _ x) --> x.

def getc : Ind -> Sudo -> Line.
[x] getc 1 (c x _ _ _ _ _ _ _ _) --> x
[x] getc 2 (c _ x _ _ _ _ _ _ _) --> x
[x] getc 3 (c _ _ x _ _ _ _ _ _) --> x
[x] getc 4 (c _ _ _ x _ _ _ _ _) --> x
[x] getc 5 (c _ _ _ _ x _ _ _ _) --> x
[x] getc 6 (c _ _ _ _ _ x _ _ _) --> x
[x] getc 7 (c _ _ _ _ _ _ x _ _) --> x
[x] getc 8 (c _ _ _ _ _ _ _ x _) --> x
[x] getc 9 (c _ _ _ _ _ _ _ _ x) --> x.




def setl : Ind -> Ind -> Line -> Line.
[k,x1,x2,x3,x4,x5,x6,x7,x8,x9] setl 1 k (l x1 x2 x3 x4 x5 x6 x7 x8 x9) --> (l k  x2 x3 x4 x5 x6 x7 x8 x9)
[k,x1,x2,x3,x4,x5,x6,x7,x8,x9] setl 2 k (l x1 x2 x3 x4 x5 x6 x7 x8 x9) --> (l x1 k  x3 x4 x5 x6 x7 x8 x9)
[k,x1,x2,x3,x4,x5,x6,x7,x8,x9] setl 3 k (l x1 x2 x3 x4 x5 x6 x7 x8 x9) --> (l x1 x2 k  x4 x5 x6 x7 x8 x9)
[k,x1,x2,x3,x4,x5,x6,x7,x8,x9] setl 4 k (l x1 x2 x3 x4 x5 x6 x7 x8 x9) --> (l x1 x2 x3 k  x5 x6 x7 x8 x9)
[k,x1,x2,x3,x4,x5,x6,x7,x8,x9] setl 5 k (l x1 x2 x3 x4 x5 x6 x7 x8 x9) --> (l x1 x2 x3 x4 k  x6 x7 x8 x9)
[k,x1,x2,x3,x4,x5,x6,x7,x8,x9] setl 6 k (l x1 x2 x3 x4 x5 x6 x7 x8 x9) --> (l x1 x2 x3 x4 x5 k  x7 x8 x9)
[k,x1,x2,x3,x4,x5,x6,x7,x8,x9] setl 7 k (l x1 x2 x3 x4 x5 x6 x7 x8 x9) --> (l x1 x2 x3 x4 x5 x6 k  x8 x9)
[k,x1,x2,x3,x4,x5,x6,x7,x8,x9] setl 8 k (l x1 x2 x3 x4 x5 x6 x7 x8 x9) --> (l x1 x2 x3 x4 x5 x6 x7 k  x9)
[k,x1,x2,x3,x4,x5,x6,x7,x8,x9] setl 9 k (l x1 x2 x3 x4 x5 x6 x7 x8 x9) --> (l x1 x2 x3 x4 x5 x6 x7 x8 k ).

def setc : Ind -> (Line -> Line) -> Sudo -> Sudo.
[k,x1,x2,x3,x4,x5,x6,x7,x8,x9] setc 1 k (c x1 x2 x3 x4 x5 x6 x7 x8 x9) --> (c (k x1) x2 x3 x4 x5 x6 x7 x8 x9)
[k,x1,x2,x3,x4,x5,x6,x7,x8,x9] setc 2 k (c x1 x2 x3 x4 x5 x6 x7 x8 x9) --> (c x1 (k x2) x3 x4 x5 x6 x7 x8 x9)
[k,x1,x2,x3,x4,x5,x6,x7,x8,x9] setc 3 k (c x1 x2 x3 x4 x5 x6 x7 x8 x9) --> (c x1 x2 (k x3) x4 x5 x6 x7 x8 x9)
[k,x1,x2,x3,x4,x5,x6,x7,x8,x9] setc 4 k (c x1 x2 x3 x4 x5 x6 x7 x8 x9) --> (c x1 x2 x3 (k x4) x5 x6 x7 x8 x9)
[k,x1,x2,x3,x4,x5,x6,x7,x8,x9] setc 5 k (c x1 x2 x3 x4 x5 x6 x7 x8 x9) --> (c x1 x2 x3 x4 (k x5) x6 x7 x8 x9)
[k,x1,x2,x3,x4,x5,x6,x7,x8,x9] setc 6 k (c x1 x2 x3 x4 x5 x6 x7 x8 x9) --> (c x1 x2 x3 x4 x5 (k x6) x7 x8 x9)
[k,x1,x2,x3,x4,x5,x6,x7,x8,x9] setc 7 k (c x1 x2 x3 x4 x5 x6 x7 x8 x9) --> (c x1 x2 x3 x4 x5 x6 (k x7) x8 x9)
[k,x1,x2,x3,x4,x5,x6,x7,x8,x9] setc 8 k (c x1 x2 x3 x4 x5 x6 x7 x8 x9) --> (c x1 x2 x3 x4 x5 x6 x7 (k x8) x9)
[k,x1,x2,x3,x4,x5,x6,x7,x8,x9] setc 9 k (c x1 x2 x3 x4 x5 x6 x7 x8 x9) --> (c x1 x2 x3 x4 x5 x6 x7 x8 (k x9)).




def E : Line := l X X X X X X X X X.
def empty_sudo : Sudo := c E E E E E E E E E.


def get : Ind -> Ind -> Sudo -> Ind.
[i,j,s] get i j s --> getl j (getc i s).

def set : Ind -> Ind -> Ind -> Sudo -> Sudo.
[i,j,k,s] set i j k s --> setc i (setl j k) s.


def exists' : (Ind -> Bool) -> Ind -> Bool.
[f  ] exists' f X --> F
[f,i] exists' f i --> or (f i) (exists' f (S i)).

def exists : (Ind -> Bool) -> Bool := f => exists' f 1.



def mem_line : Ind -> Ind -> Ind -> Sudo -> Bool.
[i,j,k,s] mem_line i j k s --> exists (i': Ind => eq (get i' j s) k).

def mem_col  : Ind -> Ind -> Ind -> Sudo -> Bool.
[i,j,k,s] mem_col i j k s --> exists (j': Ind => eq (get i j' s) k).

def mem_squ  : Ind -> Ind -> Ind -> Sudo -> Bool.
[i,j,k,s] mem_squ i j k s -->
  (i': Ind =>
   j': Ind =>
    (or (eq (get i'         j'         s) k)
    (or (eq (get (S i')     j'         s) k)
    (or (eq (get (S (S i')) j'         s) k)
    (or (eq (get i'         (S j')     s) k)
    (or (eq (get (S i')     (S j')     s) k)
    (or (eq (get (S (S i')) (S j')     s) k)
    (or (eq (get i'         (S (S j')) s) k)
    (or (eq (get (S i')     (S (S j')) s) k)
        (eq (get (S (S i')) (S (S j')) s) k)))))))))
  )
  (trunc3 i) (trunc3 j).


def check : Ind -> Ind -> Ind -> Sudo -> Bool :=
  i => j => k => s =>
     and (not (mem_line i j k s))
   ( and (not (mem_col  i j k s))
         (not (mem_squ  i j k s))).


Solution : Type.
success : Sudo -> Solution.
fail : Solution.


def ite : Bool -> Solution -> Solution -> Solution.
[x] ite T x _ --> x
[x] ite F _ x --> x.

def iffail : Solution -> Solution -> Solution.
[x] iffail (success x) _ --> success x
[d] iffail fail     d --> d.

def solve : Ind -> Ind -> Ind -> Sudo -> Solution.
[i,s]     solve i X _ s --> solve (S i) 1 1 s
[  s]     solve X _ _ s --> success s
[i,j,s]   solve i j X s --> fail
[i,j,k,s] solve i j k s -->
  ite
    (eq (get i j s) X)
    (ite
      (check i j k s)
      (iffail
        (solve i (S j) 1 (set i j k s))
        (solve i j (S k) s)
      )
      (solve i j (S k) s)
    )
    (solve i (S j) 1 s).


def solve_sudo : Sudo -> Solution := s => solve 1 1 1 s.

(; A dependent type used to check equality ;)
Dep: Solution -> Type.
dep : s: Solution -> Dep s.
".

(** examples/sudoku/solve_easy.dk *)
Definition solve_easy_dk : str := $"def sudoku :=
c (l X X X   2 6 X   7 X 1)
  (l 6 8 X   X 7 X   X 9 X)
  (l 1 9 X   X X 4   5 X X)

  (l 8 2 X   1 X X   X 4 X)
  (l X X 4   6 X 2   9 X X)
  (l X 5 X   X X 3   X 2 8)

  (l X X 9   3 X X   X 7 4)
  (l X 4 X   X 5 X   X 3 6)
  (l 7 X 3   X 1 8   X X X).

(; typechecks if the solution of the Sudoku calculated is the given solution ;)
def check_solution : Dep (solve_sudo sudoku) := dep
(success
  (c
    (l 4 3 5 2 6 9 7 8 1)
    (l 6 8 2 5 7 1 4 9 3)
    (l 1 9 7 8 3 4 5 6 2)
    (l 8 2 6 1 9 5 3 4 7)
    (l 3 7 4 6 8 2 9 1 5)
    (l 9 5 1 7 4 3 6 2 8)
    (l 5 1 9 3 2 6 8 7 4)
    (l 2 4 8 9 5 7 1 3 6)
    (l 7 6 3 4 1 8 2 5 9))
).
".

(** examples/sudoku/solve_medium.dk *)
Definition solve_medium_dk : str := $"def sudoku :=
c (l X 2 X   6 X 8   X X X)
  (l 5 8 X   X X 9   7 X X)
  (l X X X   X 4 X   X X X)

  (l 3 7 X   X X X   6 X X)
  (l 6 X X   X X X   X X 4)
  (l X X 8   X X X   X 1 3)

  (l X X X   X 2 X   X X X)
  (l X X 9   8 X X   X 3 6)
  (l X X X   3 X 6   X 9 X).

def check_solution : Dep (solve_sudo sudoku) := dep
(success
  (c
    (l 1 2 3 6 7 8 4 5 9)
    (l 5 8 4 1 3 9 7 6 2)
    (l 9 6 7 2 4 5 3 8 1)
    (l 3 7 5 4 9 1 6 2 8)
    (l 6 1 2 5 8 3 9 7 4)
    (l 4 9 8 7 6 2 5 1 3)
    (l 8 3 6 9 2 7 1 4 5)
    (l 7 5 9 8 1 4 2 3 6)
    (l 2 4 1 3 5 6 8 9 7))
).
".

(** magic.dk with the definition that stands in a comment, which fails *)
Definition magic_fails : str :=
  $"def fails : A -> A -> A -> List (S (S (S 0))) := cons (S (S (0))).".
Definition fib8 : str := $"def eq : Dep (fib (mul 2 4)) := dep (fib (mul 4 2)).".
Definition or8 : str := $"def eq : Bool_Dep (or_n (mul 2 4)) := bool_dep F.".

Definition big : nat := N.to_nat 20000.
Definition test_kernel : kernel := real_kernel (fun _ => sometimes) big.

(** kocheck on a text from the standard input, one thread *)
Definition verdict (eta : bool) (text : str) : option (res (perr parse_error) unit) :=
  match run_results (lazy_next scope_atom junk0) big (lazy_new (text_lines text)), path_read ($"-") with
  | Some items, Some (m, _) =>
    let o := Opts eta None false in
    let st := pst_new o in
    Some (snd (infer_checks_seq parse_error test_kernel o _ (run_item parse_error o) items
      (PSt (set_path (ps_syms st) m) (ps_next st) (ps_gc st))))
  | _, _ => None
  end.

Lemma verdict_kocheck eta text r : verdict eta text = Some r ->
  kocheck junk0 test_kernel (Opts eta None false) false [($"-", Some text)] r.
Proof.
  unfold verdict. destruct (run_results _ _ _) as [items|] eqn:E; [|discriminate]. apply run_results_ok in E.
  change (path_read ($"-")) with (Some ([$"-"], true)).
  cbv beta iota zeta. match goal with |- Some (snd ?x) = _ -> _ => destruct x as [[st' rest] r0] eqn:Er end. cbn [snd]. intros [= ->].
  eexists. split; [constructor; [|constructor]|].
  - eapply opens_text; [reflexivity|exact E].
  - cbn iota. unfold run.
    destruct (is_ok r) eqn:Ho.
    + destruct r as [[]|e| |]; try discriminate. eapply run_ok; [exists rest; exact Er|constructor].
    + eapply run_err; [exists rest; exact Er|exact Ho].
Qed.

(** kocheck accepts the programs that are meant to be accepted ... *)
Example test_accepts : Forall (fun text => kocheck junk0 test_kernel (Opts false None false) false [($"-", Some text)] (Ok tt))
  [ bool_dk; fo_imp_dk; magic_dk; nat_dk; pure_dk; bool_dk ++ sudoku_dk; nat_dk ++ fib8; bool_dk ++ nat_dk ++ or_n_dk ++ or8 ].
Proof.
  repeat (constructor; [apply verdict_kocheck; vm_compute; reflexivity|]). constructor.
Qed.

(** ... and rejects the one that is meant to be rejected. *)
Example test_rejects : kocheck junk0 test_kernel (Opts false None false) false [($"-", Some (magic_dk ++ magic_fails))]
  (Err (PKo (KoTyping ModelSubst.Unconvertible))).
Proof. apply verdict_kocheck. vm_compute. reflexivity. Qed.

