(** Texts and the expressions they are read as. *)
From Coq Require Import String Ascii List Bool Arith ZArith Lia.
From Verif Require Import Py KexModel PySpec PyProofs StrModel.
Import ListNotations.
Local Open Scope string_scope.
Local Open Scope list_scope.

Lemma sapp_assoc (a b c : string) : ((a ++ b) ++ c = a ++ (b ++ c))%string.
Proof. induction a as [|x a IH]; cbn; [reflexivity|]. now rewrite IH. Qed.
Lemma sapp_nil (a : string) : (a ++ "" = a)%string.
Proof. induction a as [|x a IH]; cbn; [reflexivity|]. now rewrite IH. Qed.

(** A text after which a name ends. *)
Definition ends (rest : string) : Prop := match rest with EmptyString => True | String c _ => is_letter c = false end.
Definition with_toks (ts : list tok) (r : option (list tok)) : option (list tok) := match r with Some l => Some (ts ++ l) | None => None end.
Definition lexes (s : string) (ts : list tok) : Prop := forall rest, ends rest -> lex Outside (s ++ rest) = with_toks ts (lex Outside rest).
Lemma with_toks_app ts us r : with_toks (ts ++ us) r = with_toks ts (with_toks us r).
Proof. destruct r; cbn; [now rewrite app_assoc|reflexivity]. Qed.
Lemma with_tok_toks t ts r : with_tok t (with_toks ts r) = with_toks (t :: ts) r.
Proof. destruct r; reflexivity. Qed.
Lemma with_tok_one t r : with_tok t r = with_toks [t] r.
Proof. destruct r; reflexivity. Qed.

Lemma in_name_ends n rest : ends rest -> lex (InName n) rest = with_tok (TName n) (lex Outside rest).
Proof. destruct rest as [|c t]; cbn; intros E; [reflexivity|]. rewrite E. reflexivity. Qed.
Definition all_letters (s : string) : Prop := forallb is_letter (list_ascii_of_string s) = true.
Lemma in_name_letters s : forall n rest, all_letters s -> lex (InName n) (s ++ rest) = lex (InName (n ++ s)%string) rest.
Proof.
  induction s as [|c s IH]; intros n rest A; [now rewrite sapp_nil|]. apply andb_prop in A as (A & B). cbn [append lex].
  rewrite A. rewrite IH by exact B. now rewrite sapp_assoc.
Qed.
Lemma lexes_name s : all_letters s -> s <> "" -> lexes s [TName s].
Proof.
  intros A N rest E. destruct s as [|c s]; [easy|]. apply andb_prop in A as (A & B). cbn [append lex]. rewrite A.
  rewrite in_name_letters by exact B. rewrite in_name_ends by exact E. rewrite with_tok_one. reflexivity.
Qed.
Lemma in_string_letters s : forall n rest, all_letters s -> lex (InString n) (s ++ String "'" rest) = with_tok (TStr (n ++ s)) (lex Outside rest).
Proof.
  induction s as [|c s IH]; intros n rest A; [now rewrite sapp_nil|]. apply andb_prop in A as (A & B).
  assert (Q : Ascii.eqb c "'" = false). { destruct (Ascii.eqb_spec c "'") as [->|]; [discriminate A|reflexivity]. }
  cbn [append lex]. rewrite Q. rewrite IH by exact B. now rewrite sapp_assoc.
Qed.
Lemma lexes_quoted s : all_letters s -> lexes (quoted s) [TStr s].
Proof.
  intros A rest _. unfold quoted. rewrite !sapp_assoc. cbn [append lex]. change (is_letter "'") with false. cbv iota. cbn [Ascii.eqb Bool.eqb].
  rewrite in_string_letters by exact A. rewrite with_tok_one. reflexivity.
Qed.
Lemma lexes_app s ts t us : lexes s ts -> lexes t us -> (forall rest, ends rest -> ends (t ++ rest)) -> lexes (s ++ t) (ts ++ us).
Proof. intros A B E rest R. rewrite sapp_assoc, A by (now apply E). rewrite B by exact R. now rewrite with_toks_app. Qed.
(** After a text that ends with something else than a letter anything can follow. *)
Definition lexes_any (s : string) (ts : list tok) : Prop := forall rest, lex Outside (s ++ rest) = with_toks ts (lex Outside rest).
Lemma lexes_any_app s ts t us : lexes_any s ts -> lexes t us -> lexes (s ++ t) (ts ++ us).
Proof. intros A B rest R. rewrite sapp_assoc, A, B by exact R. now rewrite with_toks_app. Qed.
Lemma lexes_app_any s ts t us : lexes s ts -> lexes_any t us -> (forall rest, ends (t ++ rest)) -> lexes_any (s ++ t) (ts ++ us).
Proof. intros A B E rest. rewrite sapp_assoc, A by apply E. rewrite B. now rewrite with_toks_app. Qed.
Lemma lexes_any_any s ts t us : lexes_any s ts -> lexes_any t us -> lexes_any (s ++ t) (ts ++ us).
Proof. intros A B rest. rewrite sapp_assoc, A, B. now rewrite with_toks_app. Qed.
Lemma any_lexes s ts : lexes_any s ts -> lexes s ts.
Proof. intros A rest _. apply A. Qed.
Ltac lit := let r := fresh in intros r; cbn; destruct (lex Outside r); reflexivity.
Lemma lexes_tokens s ts : lexes s ts -> tokens s = Some ts.
Proof. intros A. unfold tokens. rewrite <- (sapp_nil s). rewrite A by exact I. cbn. now rewrite app_nil_r. Qed.

(** Texts of sums, of products and of atoms. *)
Definition d_sum (s : string) (p : pyexp) : Prop := exists ts, lexes s ts /\ sum_reads ts p.
Definition d_product (s : string) (p : pyexp) : Prop := exists ts, lexes s ts /\ product_reads ts p.
Definition d_atom (s : string) (p : pyexp) : Prop := exists ts, lexes s ts /\ atom_reads ts p.
Lemma d_sum_reads s p : d_sum s p -> reads s p.
Proof. intros (ts & A & B). exists ts. split; [now apply lexes_tokens|exact B]. Qed.
Lemma atom_product s p : d_atom s p -> d_product s p.
Proof. intros (ts & A & B). exists ts. split; [exact A|now constructor]. Qed.
Lemma product_sum s p : d_product s p -> d_sum s p.
Proof. intros (ts & A & B). exists ts. split; [exact A|now constructor]. Qed.
Lemma d_name s : all_letters s -> s <> "" -> d_atom s (PName s).
Proof. intros A N. exists [TName s]. split; [now apply lexes_name|constructor]. Qed.
Lemma d_call0 s : all_letters s -> s <> "" -> d_atom (s ++ "()") (PCall s []).
Proof.
  intros A N. exists ([TName s] ++ [sym "("; sym ")"]). split.
  - apply any_lexes, lexes_app_any; [now apply lexes_name| |]; lit.
  - apply (atom_call s [] []). constructor.
Qed.
Lemma d_string s : all_letters s -> d_atom (quoted s) (PStr s).
Proof. intros A. exists [TStr s]. split; [now apply lexes_quoted|constructor]. Qed.
Lemma d_plus s t p q : d_sum s p -> d_product t q -> d_sum (s ++ (" + " ++ t)) (PAdd p q).
Proof.
  intros (ts & A & B) (us & C & D). exists (ts ++ ([sym "+"] ++ us)). split; [|now constructor].
  apply lexes_app; [exact A| |intros rest _; reflexivity]. apply (lexes_any_app " + "); [lit|exact C].
Qed.
Lemma d_times s t p q : d_product s p -> d_atom t q -> d_product (s ++ (" * " ++ t)) (PMul p q).
Proof.
  intros (ts & A & B) (us & C & D). exists (ts ++ ([sym "*"] ++ us)). split; [|now constructor].
  apply lexes_app; [exact A| |intros rest _; reflexivity]. apply (lexes_any_app " * "); [lit|exact C].
Qed.
Lemma d_brackets s p : d_sum s p -> d_atom (bs s) p.
Proof.
  intros (ts & A & B). exists ([sym "("] ++ ts ++ [sym ")"]). split; [|now constructor].
  unfold bs. apply lexes_any_app; [lit|]. apply any_lexes, lexes_app_any; [exact A|lit|intros rest; reflexivity].
Qed.

(** Comma-separated arguments. *)
Definition d_args (s : string) (l : list pyexp) : Prop := exists ts, lexes s ts /\ args_read ts l.
Definition d_args1 (s : string) (l : list pyexp) : Prop := exists ts, lexes s ts /\ args1_read ts l.
Lemma d_args1_one s p : d_sum s p -> d_args1 s [p].
Proof. intros (ts & A & B). exists ts. split; [exact A|now constructor]. Qed.
Lemma d_args1_more s t p l : d_sum s p -> d_args1 t l -> d_args1 (s ++ (", " ++ t)) (p :: l).
Proof.
  intros (ts & A & B) (us & C & D). exists (ts ++ ([sym ","] ++ us)). split; [|now constructor].
  apply lexes_app; [exact A| |intros rest _; reflexivity]. apply (lexes_any_app ", "); [lit|exact C].
Qed.
Lemma d_args1_args s l : d_args1 s l -> d_args s l.
Proof. intros (ts & A & B). exists ts. split; [exact A|now constructor]. Qed.
Lemma concat_cons (sep x y : string) l : String.concat sep (x :: y :: l) = (x ++ (sep ++ String.concat sep (y :: l)))%string.
Proof. reflexivity. Qed.
Lemma d_args_join l : forall ps, Forall2 d_sum l ps -> d_args (String.concat ", " l) ps.
Proof.
  intros ps H. destruct H as [|x p l ps Hx H]; [exists []; split; [lit|constructor]|]. apply d_args1_args. revert x p Hx.
  induction H as [|y q l ps Hy H IH]; intros x p Hx; [now apply d_args1_one|]. rewrite concat_cons. apply d_args1_more; [exact Hx|now apply IH].
Qed.
Lemma d_call f s l : all_letters f -> f <> "" -> d_args s l -> d_atom (f ++ ("(" ++ (s ++ ")"))) (PCall f l).
Proof.
  intros F N (ts & A & B). exists ([TName f] ++ [sym "("] ++ ts ++ [sym ")"]). split; [|now constructor].
  apply lexes_app; [now apply lexes_name| |intros rest _; reflexivity]. apply lexes_any_app; [lit|].
  apply any_lexes, lexes_app_any; [exact A|lit|intros rest; reflexivity].
Qed.
Lemma d_list s l : d_args s l -> d_atom ("[" ++ (s ++ "]")) (PList l).
Proof.
  intros (ts & A & B). exists ([sym "["] ++ ts ++ [sym "]"]). split; [|now constructor].
  apply lexes_any_app; [lit|]. apply any_lexes, lexes_app_any; [exact A|lit|intros rest; reflexivity].
Qed.

(** Joins by + and *. *)
Definition tail (sep : string) (l : list string) : string := fold_right (fun y acc => sep ++ (y ++ acc))%string "" l.
Lemma concat_tail sep l : forall x, String.concat sep (x :: l) = (x ++ tail sep l)%string.
Proof. induction l as [|y l IH]; intros x; [cbn [tail fold_right]; now rewrite sapp_nil|]. rewrite concat_cons, IH. reflexivity. Qed.
Lemma d_sum_join l ps : Forall2 d_product l ps -> forall s p, d_sum s p -> d_sum (s ++ tail " + " l) (fold_left PAdd ps p).
Proof.
  induction 1 as [|y q l ps Hy H IH]; intros s p Hs; [cbn [tail fold_right]; now rewrite sapp_nil|]. cbn [fold_left].
  change (tail " + " (y :: l)) with (" + " ++ (y ++ tail " + " l))%string.
  replace (s ++ (" + " ++ (y ++ tail " + " l)))%string with ((s ++ (" + " ++ y)) ++ tail " + " l)%string by (now rewrite !sapp_assoc).
  apply IH. now apply d_plus.
Qed.
Lemma d_product_join l ps : Forall2 d_atom l ps -> forall s p, d_product s p -> d_product (s ++ tail " * " l) (fold_left PMul ps p).
Proof.
  induction 1 as [|y q l ps Hy H IH]; intros s p Hs; [cbn [tail fold_right]; now rewrite sapp_nil|]. cbn [fold_left].
  change (tail " * " (y :: l)) with (" * " ++ (y ++ tail " * " l))%string.
  replace (s ++ (" * " ++ (y ++ tail " * " l)))%string with ((s ++ (" * " ++ y)) ++ tail " * " l)%string by (now rewrite !sapp_assoc).
  apply IH. now apply d_times.
Qed.
(** A join of joins is a join. *)
Lemma join_app sep l m : l <> [] -> m <> [] -> String.concat sep (l ++ m) = (String.concat sep l ++ (sep ++ String.concat sep m))%string.
Proof.
  intros L M. destruct l as [|x l]; [easy|]. destruct m as [|y m]; [easy|]. cbn [app]. rewrite !concat_tail. clear L M.
  revert x. induction l as [|z l IH]; intros x; cbn [app]; [cbn [tail fold_right]; now rewrite sapp_nil|].
  change (tail sep (z :: l ++ y :: m)) with (sep ++ (z ++ tail sep (l ++ y :: m)))%string. rewrite (IH z).
  change (tail sep (z :: l)) with (sep ++ (z ++ tail sep l))%string. now rewrite !sapp_assoc.
Qed.
Lemma concat_concat sep (ls : list (list string)) : Forall (fun l => l <> []) ls -> String.concat sep (map (String.concat sep) ls) = String.concat sep (concat ls).
Proof.
  induction 1 as [|l ls L H IH]; [reflexivity|]. cbn [map concat]. destruct ls as [|m ls]; [cbn [concat map]; now rewrite app_nil_r|].
  rewrite join_app; [|exact L|]. 2:{ inversion H; subst. cbn [concat]. intros E. now apply app_eq_nil in E. }
  rewrite <- IH. reflexivity.
Qed.
