(** How python reads a line of names, string literals, brackets, commas, + and *: the part of its grammar that C13 and C14 need. *)
From Coq Require Import String Ascii List Bool Arith.
Import ListNotations.
Local Open Scope list_scope.

(** * Tokens *)
Inductive tok : Type := TName (s : string) | TStr (s : string) | TSym (c : ascii).
Definition is_letter (c : ascii) : bool :=
  let n := nat_of_ascii c in ((65 <=? n)%nat && (n <=? 90)%nat) || ((97 <=? n)%nat && (n <=? 122)%nat).
Definition is_symbol (c : ascii) : bool := existsb (Ascii.eqb c) ["("; ")"; "["; "]"; ","; "+"; "*"]%char.
Inductive lexing : Type := Outside | InName (s : string) | InString (s : string).
Definition with_tok (t : tok) (r : option (list tok)) : option (list tok) := match r with Some l => Some (t :: l) | None => None end.
(** Names are maximal sequences of letters, string literals are enclosed in single quotes, spaces outside these are ignored. *)
Fixpoint lex (st : lexing) (s : string) : option (list tok) :=
  match s with
  | EmptyString => match st with Outside => Some [] | InName n => Some [TName n] | InString _ => None end
  | String c t =>
      let next (_ : unit) :=
        if is_letter c then lex (InName (String c EmptyString)) t
        else if Ascii.eqb c "'" then lex (InString EmptyString) t
        else if Ascii.eqb c " " then lex Outside t
        else if is_symbol c then with_tok (TSym c) (lex Outside t)
        else None in
      match st with
      | InString n => if Ascii.eqb c "'" then with_tok (TStr n) (lex Outside t) else lex (InString (n ++ String c EmptyString)) t
      | InName n => if is_letter c then lex (InName (n ++ String c EmptyString)) t else with_tok (TName n) (next tt)
      | Outside => next tt
      end
  end.
Definition tokens (s : string) : option (list tok) := lex Outside s.

(** * Expressions *)
Inductive pyexp : Type :=
| PName (f : string)
| PStr (s : string)
| PCall (f : string) (args : list pyexp)
| PList (args : list pyexp)
| PAdd (a b : pyexp)
| PMul (a b : pyexp).
Notation sym c := (TSym c%char).
(** The grammar: * binds tighter than +, both associate to the left.
<<
    sum     ::= product | sum + product
    product ::= atom | product * atom
    atom    ::= NAME | STRING | NAME ( args ) | [ args ] | ( sum )
    args    ::= empty | sum {, sum}
>> *)
Inductive sum_reads : list tok -> pyexp -> Prop :=
| sum_product ts p : product_reads ts p -> sum_reads ts p
| sum_plus ts us p q : sum_reads ts p -> product_reads us q -> sum_reads (ts ++ sym "+" :: us) (PAdd p q)
with product_reads : list tok -> pyexp -> Prop :=
| product_atom ts p : atom_reads ts p -> product_reads ts p
| product_times ts us p q : product_reads ts p -> atom_reads us q -> product_reads (ts ++ sym "*" :: us) (PMul p q)
with atom_reads : list tok -> pyexp -> Prop :=
| atom_name f : atom_reads [TName f] (PName f)
| atom_string s : atom_reads [TStr s] (PStr s)
| atom_call f ts args : args_read ts args -> atom_reads (TName f :: sym "(" :: ts ++ [sym ")"]) (PCall f args)
| atom_list ts args : args_read ts args -> atom_reads (sym "[" :: ts ++ [sym "]"]) (PList args)
| atom_brackets ts p : sum_reads ts p -> atom_reads (sym "(" :: ts ++ [sym ")"]) p
with args_read : list tok -> list pyexp -> Prop :=
| args_none : args_read [] []
| args_some ts l : args1_read ts l -> args_read ts l
with args1_read : list tok -> list pyexp -> Prop :=
| args_last ts p : sum_reads ts p -> args1_read ts [p]
| args_more ts us p l : sum_reads ts p -> args1_read us l -> args1_read (ts ++ sym "," :: us) (p :: l).

(** The line [s] is the expression [p]. *)
Definition reads (s : string) (p : pyexp) : Prop := exists ts, tokens s = Some ts /\ sum_reads ts p.
