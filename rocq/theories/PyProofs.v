(** The grammar of PySpec is unambiguous. *)
From Coq Require Import String Ascii List Bool Arith.
From Verif Require Import PySpec.
Import ListNotations.
Local Open Scope list_scope.

Definition starts (c : ascii) (ts : list tok) : Prop := exists us, ts = TSym c :: us.

(** A deterministic reader: reads an expression from the front of the tokens, as much as possible, and returns the rest. *)
Inductive r_sum : list tok -> pyexp -> list tok -> Prop :=
| r_sum_intro ts p us q vs : r_product ts p us -> r_plus p us q vs -> r_sum ts q vs
with r_plus : pyexp -> list tok -> pyexp -> list tok -> Prop :=
| r_plus_stop p ts : ~ starts "+" ts -> r_plus p ts p ts
| r_plus_go p ts q us r vs : r_product ts q us -> r_plus (PAdd p q) us r vs -> r_plus p (sym "+" :: ts) r vs
with r_product : list tok -> pyexp -> list tok -> Prop :=
| r_product_intro ts p us q vs : r_atom ts p us -> r_times p us q vs -> r_product ts q vs
with r_times : pyexp -> list tok -> pyexp -> list tok -> Prop :=
| r_times_stop p ts : ~ starts "*" ts -> r_times p ts p ts
| r_times_go p ts q us r vs : r_atom ts q us -> r_times (PMul p q) us r vs -> r_times p (sym "*" :: ts) r vs
with r_atom : list tok -> pyexp -> list tok -> Prop :=
| r_name f ts : ~ starts "(" ts -> r_atom (TName f :: ts) (PName f) ts
| r_string s ts : r_atom (TStr s :: ts) (PStr s) ts
| r_call f ts l us : r_args ")" ts l us -> r_atom (TName f :: sym "(" :: ts) (PCall f l) us
| r_list ts l us : r_args "]" ts l us -> r_atom (sym "[" :: ts) (PList l) us
| r_brackets ts p us : r_sum ts p (sym ")" :: us) -> r_atom (sym "(" :: ts) p us
with r_args : ascii -> list tok -> list pyexp -> list tok -> Prop :=
| r_none c ts : r_args c (TSym c :: ts) [] ts
| r_some c ts l us : ~ starts c ts -> r_args1 c ts l us -> r_args c ts l us
with r_args1 : ascii -> list tok -> list pyexp -> list tok -> Prop :=
| r_last c ts p us : c <> ","%char -> r_sum ts p (TSym c :: us) -> r_args1 c ts [p] us
| r_more c ts p us l vs : c <> ","%char -> r_sum ts p (sym "," :: us) -> r_args1 c us l vs -> r_args1 c ts (p :: l) vs.

Scheme r_sum_m := Minimality for r_sum Sort Prop
with r_plus_m := Minimality for r_plus Sort Prop
with r_product_m := Minimality for r_product Sort Prop
with r_times_m := Minimality for r_times Sort Prop
with r_atom_m := Minimality for r_atom Sort Prop
with r_args_m := Minimality for r_args Sort Prop
with r_args1_m := Minimality for r_args1 Sort Prop.
Combined Scheme r_ind from r_sum_m, r_plus_m, r_product_m, r_times_m, r_atom_m, r_args_m, r_args1_m.

Lemma r_deterministic :
  (forall ts p us, r_sum ts p us -> forall p' us', r_sum ts p' us' -> p' = p /\ us' = us)
  /\ (forall q ts p us, r_plus q ts p us -> forall p' us', r_plus q ts p' us' -> p' = p /\ us' = us)
  /\ (forall ts p us, r_product ts p us -> forall p' us', r_product ts p' us' -> p' = p /\ us' = us)
  /\ (forall q ts p us, r_times q ts p us -> forall p' us', r_times q ts p' us' -> p' = p /\ us' = us)
  /\ (forall ts p us, r_atom ts p us -> forall p' us', r_atom ts p' us' -> p' = p /\ us' = us)
  /\ (forall c ts p us, r_args c ts p us -> forall p' us', r_args c ts p' us' -> p' = p /\ us' = us)
  /\ (forall c ts p us, r_args1 c ts p us -> forall p' us', r_args1 c ts p' us' -> p' = p /\ us' = us).
Proof.
  apply r_ind.
  - intros ts p us q vs _ IH1 _ IH2 p' us' H. inversion H; subst. destruct (IH1 _ _ H0) as (-> & ->). now apply IH2.
  - intros p ts N p' us' H. inversion H; subst; [easy|]. destruct N. eexists; reflexivity.
  - intros p ts q us r vs _ IH1 _ IH2 p' us' H. inversion H; subst; [destruct H0; eexists; reflexivity|].
    match goal with H : r_product _ _ _ |- _ => destruct (IH1 _ _ H) as (-> & ->) end. now apply IH2.
  - intros ts p us q vs _ IH1 _ IH2 p' us' H. inversion H; subst. destruct (IH1 _ _ H0) as (-> & ->). now apply IH2.
  - intros p ts N p' us' H. inversion H; subst; [easy|]. destruct N. eexists; reflexivity.
  - intros p ts q us r vs _ IH1 _ IH2 p' us' H. inversion H; subst; [destruct H0; eexists; reflexivity|].
    match goal with H : r_atom _ _ _ |- _ => destruct (IH1 _ _ H) as (-> & ->) end. now apply IH2.
  - intros f ts N p' us' H. inversion H; subst; [easy|]. destruct N. eexists; reflexivity.
  - intros s ts p' us' H. now inversion H.
  - intros f ts l us _ IH p' us' H. inversion H; subst.
    + match goal with H : ~ starts _ _ |- _ => destruct H end. eexists; reflexivity.
    + match goal with H : r_args _ _ _ _ |- _ => destruct (IH _ _ H) as (-> & ->) end. easy.
  - intros ts l us _ IH p' us' H. inversion H; subst.
    match goal with H : r_args _ _ _ _ |- _ => destruct (IH _ _ H) as (-> & ->) end. easy.
  - intros ts p us _ IH p' us' H. inversion H; subst.
    match goal with H : r_sum _ _ _ |- _ => destruct (IH _ _ H) as (-> & E) end. injection E as ->. easy.
  - intros c ts p' us' H. inversion H; subst; [easy|]. match goal with H : ~ starts _ _ |- _ => destruct H end. eexists; reflexivity.
  - intros c ts l us N _ IH p' us' H. inversion H; subst; [destruct N; eexists; reflexivity|]. now apply IH.
  - intros c ts p us C _ IH p' us' H. inversion H; subst.
    + match goal with H : r_sum _ _ _ |- _ => destruct (IH _ _ H) as (-> & E) end. injection E as ->. easy.
    + match goal with H : r_sum _ _ _ |- _ => destruct (IH _ _ H) as (-> & E) end. injection E as E _. congruence.
  - intros c ts p us l vs C _ IH1 _ IH2 p' us' H. inversion H; subst.
    + match goal with H : r_sum _ _ _ |- _ => destruct (IH1 _ _ H) as (-> & E) end. injection E as E _. congruence.
    + match goal with H : r_sum _ _ _ |- _ => destruct (IH1 _ _ H) as (-> & E) end. injection E as ->.
      match goal with H : r_args1 _ _ _ _ |- _ => destruct (IH2 _ _ H) as (-> & ->) end. easy.
Qed.

Scheme sum_m := Minimality for sum_reads Sort Prop
with product_m := Minimality for product_reads Sort Prop
with atom_m := Minimality for atom_reads Sort Prop
with args_m := Minimality for args_read Sort Prop
with args1_m := Minimality for args1_read Sort Prop.
Combined Scheme reads_ind from sum_m, product_m, atom_m, args_m, args1_m.

Definition no_call (ts : list tok) : Prop := ~ starts "(" ts.
Lemma starts_inv c d us : starts c (TSym d :: us) -> c = d.
Proof. intros (v & [= -> _]). reflexivity. Qed.
Ltac nostart := let H := fresh in intros H; apply starts_inv in H; discriminate H.
Lemma starts_nil c : ~ starts c [].
Proof. intros (v & [=]). Qed.

(** What the tokens of an expression can start with. *)
Definition opens (ts : list tok) : Prop :=
  match ts with TName _ :: _ => True | TStr _ :: _ => True | TSym c :: _ => c = "("%char \/ c = "["%char | [] => False end.
Lemma reads_opens :
  (forall ts p, sum_reads ts p -> opens ts) /\ (forall ts p, product_reads ts p -> opens ts) /\ (forall ts p, atom_reads ts p -> opens ts)
  /\ (forall ts l, args_read ts l -> True) /\ (forall ts l, args1_read ts l -> opens ts).
Proof.
  apply reads_ind; intros; cbn; auto; try exact I.
  - destruct ts; [contradiction|assumption].
  - destruct ts; [contradiction|assumption].
  - destruct ts; [contradiction|assumption].
Qed.

Lemma reads_complete :
  (forall ts p, sum_reads ts p -> forall us q vs, no_call us -> ~ starts "*" us -> r_plus p us q vs -> r_sum (ts ++ us) q vs)
  /\ (forall ts p, product_reads ts p -> forall us q vs, no_call us -> r_times p us q vs -> r_product (ts ++ us) q vs)
  /\ (forall ts p, atom_reads ts p -> forall us, no_call us -> r_atom (ts ++ us) p us)
  /\ (forall ts l, args_read ts l -> forall c us, c = ")"%char \/ c = "]"%char -> r_args c (ts ++ TSym c :: us) l us)
  /\ (forall ts l, args1_read ts l -> forall c us, c = ")"%char \/ c = "]"%char -> r_args1 c (ts ++ TSym c :: us) l us).
Proof.
  apply reads_ind.
  - intros ts p _ IH us q vs N S H. econstructor; [|exact H]. apply IH; [exact N|]. now constructor.
  - intros ts us p q _ IH1 _ IH2 rest r vs N S H. rewrite <- app_assoc. cbn [app]. apply IH1; [nostart|nostart|].
    econstructor; [|exact H]. apply IH2; [exact N|]. now constructor.
  - intros ts p _ IH us q vs N H. econstructor; [|exact H]. now apply IH.
  - intros ts us p q _ IH1 _ IH2 rest r vs N H. rewrite <- app_assoc. cbn [app]. apply IH1; [nostart|]. econstructor; [|exact H]. now apply IH2.
  - intros f us N. now constructor.
  - intros s us N. constructor.
  - intros f ts args _ IH us N. cbn [app]. rewrite <- app_assoc. constructor. apply IH. now left.
  - intros ts args _ IH us N. cbn [app]. rewrite <- app_assoc. constructor. apply IH. now right.
  - intros ts p _ IH us N. cbn [app]. rewrite <- app_assoc. constructor. apply IH; [nostart|nostart|]. constructor. nostart.
  - intros c us _. constructor.
  - intros ts l H IH c us C. constructor; [|now apply IH]. intros S. pose proof (proj2 (proj2 (proj2 (proj2 reads_opens))) _ _ H) as O.
    destruct ts as [|t ts']; [contradiction|]. destruct S as (w & E). cbn [app] in E. injection E as -> _. cbn in O.
    destruct C as [->| ->]; destruct O; discriminate.
  - intros ts p _ IH c us C. constructor; [destruct C as [->| ->]; discriminate|]. apply IH; [| |constructor];
      intros S; apply starts_inv in S; destruct C as [->| ->]; discriminate.
  - intros ts us p l _ IH1 _ IH2 c vs C. rewrite <- app_assoc. cbn [app]. econstructor; [destruct C as [->| ->]; discriminate| |now apply IH2].
    apply IH1; [nostart|nostart|]. constructor. nostart.
Qed.

Lemma sum_unambiguous ts p q : sum_reads ts p -> sum_reads ts q -> q = p.
Proof.
  intros A B. pose proof (proj1 reads_complete _ _ A [] p [] (starts_nil _) (starts_nil _) (r_plus_stop _ _ (starts_nil _))) as RA.
  pose proof (proj1 reads_complete _ _ B [] q [] (starts_nil _) (starts_nil _) (r_plus_stop _ _ (starts_nil _))) as RB.
  exact (proj1 (proj1 r_deterministic _ _ _ RA _ _ RB)).
Qed.
Lemma reads_unambiguous s p q : reads s p -> reads s q -> q = p.
Proof. intros (ts & A & HA) (us & B & HB). rewrite A in B. injection B as <-. exact (sum_unambiguous _ _ _ HA HB). Qed.
