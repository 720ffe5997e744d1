(** Specification for C37-C47: what the validator has to find. *)
From Coq Require Import String.
From Verif Require Import Base Ast Parser Validation AccessSpec.
Local Open Scope Z_scope.

Inductive severity := Error | Warning.
Record finding := mkFinding { f_sev : severity; f_msg : pystr; f_node : qnode }.

(** ** The layer rules *)
Definition known_layers : list pystr := [u "text"; u "lemma"; u "pos"; u "orth"; u "norm"; u "phonetic"].
(** Custom layers are named x-... *)
Definition custom_layer (i : pystr) : Prop := exists r, i = u "x-" ++ r.
(** A non-empty list of allowed identifiers replaces the built-in table. *)
Definition restricted (C : vcfg) (l : list pystr) : Prop := allowed_layer_identifiers C = Some l /\ l <> [].
Definition layer_unknown (C : vcfg) (i : pystr) : Prop :=
  (exists l, restricted C l /\ ~ In i l) \/
  ((forall l, ~ restricted C l) /\ ~ In i known_layers /\ i <> u "word" /\ ~ custom_layer i).
Definition layer_dubious (C : vcfg) (i : pystr) : Prop :=
  (forall l, ~ restricted C l) /\ ~ In i known_layers /\ (i = u "word" \/ custom_layer i).
(** The first entry for the layer counts; no entry (or [None]) allows no qualifier. *)
Inductive qualifiers_for : list (pystr * option (list pystr)) -> pystr -> option (list pystr) -> Prop :=
| qf_none i : qualifiers_for [] i None
| qf_here i qs l : qualifiers_for ((i, qs) :: l) i qs
| qf_next i j qs l r : i <> j -> qualifiers_for l i r -> qualifiers_for ((j, qs) :: l) i r.
Definition qualifier_unknown (C : vcfg) (i : pystr) (qu : option pystr) : Prop :=
  exists q table r, qu = Some q /\ q <> [] /\ allowed_layer_qualifiers C = Some table /\ table <> [] /\
    qualifiers_for table i r /\ (r = None \/ exists qs, r = Some qs /\ ~ In q qs).

(** ** The POS rule *)
(** The characters [re.escape] escapes: punctuation with a meaning in regular
    expressions and white space. *)
Definition regex_chars : list N := u "()[]{}?*+-|^$\.&~# " ++ [9; 10; 13; 11; 12]%N.
Definition regex_char (c : N) : Prop := In c regex_chars /\ c <> 32%N.
Definition ud17_tags : list pystr :=
  [u "ADJ"; u "ADP"; u "ADV"; u "AUX"; u "CCONJ"; u "DET"; u "INTJ"; u "NOUN"; u "NUM"; u "PART";
   u "PRON"; u "PROPN"; u "PUNCT"; u "SCONJ"; u "SYM"; u "VERB"; u "X"].
Definition pos_dubious (i : pystr) (qu : option pystr) (r : pystr) (fl : option flags) : Prop :=
  i = u "pos" /\ (qu = None \/ qu = Some []) /\ (forall F, fl = Some F -> forall f, flag_in f F = false) /\
  ~ In r ud17_tags /\ ~ exists c, In c r /\ regex_char c.

(** ** Findings of a tree: those of its expressions, in order *)
Section Findings.
  Variable check : qnode -> list finding.
  Definition findings (n : qnode) : list finding :=
    flat_map check (filter (fun m => if class_eq_dec (q_class m) CExpression then true else false) (preorder n)).
End Findings.
Definition of_sev (s : severity) (l : list finding) : list finding :=
  filter (fun f => match f_sev f, s with Error, Error | Warning, Warning => true | _, _ => false end) l.
(** The query text of a node, if the query and the node's location are known. *)
Definition text_of (q : option pystr) (n : qnode) : option pystr :=
  match q, q_loc n with
  | Some ((_ :: _) as q), Some l => Some (slice q (l_start l) (l_stop l))
  | _, _ => None
  end.
Definition detail_of (q : option pystr) (f : finding) : error_detail :=
  mkErr (f_msg f)
        (Some (match f_sev f with Error => u "validation-error" | Warning => u "validation-warning" end))
        (option_map PosLoc (q_loc (f_node f))) (text_of q (f_node f)).
(** Findings that make a tree invalid. *)
Definition fatal (C : vcfg) (f : finding) : bool :=
  match f_sev f with Error => true | Warning => warnings_as_errors C end.

(** ** The findings of one expression, in order (with their messages) *)
Section Checks.
  Variable repr_list : list pystr -> pystr.
  Variable C : vcfg.
  Definition sq (s : pystr) : pystr := u "'" ++ s ++ u "'".
  Definition known (s : pystr) (l : list pystr) : bool := if in_dec (list_eq_dec N.eq_dec) s l then true else false.
  Definition layer_check (i : pystr) : list (severity * pystr) :=
    match allowed_layer_identifiers C with
    | Some ((_ :: _) as l) =>
        if known i l then []
        else [(Error, u "Unknown layer identifier " ++ sq i ++ u " (only allowed: " ++ repr_list l ++ u ")!")]
    | _ =>
        if known i known_layers then []
        else if known i [u "word"] then
          [(Warning, u "Usage of legacy(?) layer " ++ sq i ++ u ". Did you mean 'text' instead?")]
        else if startswith (u "x-") i then [(Warning, u "Usage of custom layer with identifier " ++ sq i)]
        else [(Error, u "Unknown layer identifier " ++ sq i ++ u "!")]
    end.
  Fixpoint qualifiers_of (l : list (pystr * option (list pystr))) (i : pystr) : option (list pystr) :=
    match l with
    | [] => None
    | (j, qs) :: l' => if list_eq_dec N.eq_dec j i then qs else qualifiers_of l' i
    end.
  Definition qualifier_check (i : pystr) (qu : option pystr) : list (severity * pystr) :=
    match qu, allowed_layer_qualifiers C with
    | Some ((_ :: _) as q), Some ((_ :: _) as l) =>
        match qualifiers_of l i with
        | None => [(Error, u "Usage of layer qualifier " ++ sq q
                     ++ u " which is not allowed for layer with identifier " ++ sq i ++ u "!")]
        | Some qs =>
            if known q qs then []
            else [(Error, u "Usage of unknown layer qualifier " ++ sq q ++ u " for layer with identifier "
                     ++ sq i ++ u " (only allowed: " ++ repr_list qs ++ u ")!")]
        end
    | _, _ => []
    end.
  Definition pos_check (i : pystr) (qu : option pystr) (r : pystr) (fl : option flags) : list (severity * pystr) :=
    match qu, fl with
    | Some (_ :: _), _ => []
    | _, Some (mkFlags true _ _ _) | _, Some (mkFlags _ true _ _)
    | _, Some (mkFlags _ _ true _) | _, Some (mkFlags _ _ _ true) => []
    | _, _ =>
        if known i [u "pos"] && negb (known r ud17_tags)
           && negb (existsb (fun c => if in_dec N.eq_dec c regex_chars then negb (N.eqb c 32) else false) r)
        then [(Warning, u "Layer 'pos' without qualifier should use UD17 POS tags, found " ++ sq r
                 ++ u " (recommended to only use: "
                 ++ repr_list [u "ADJ"; u "ADV"; u "INTJ"; u "NOUN"; u "PROPN"; u "VERB"; u "ADP"; u "AUX"; u "CCONJ"; u "DET";
                               u "NUM"; u "PART"; u "PRON"; u "SCONJ"; u "PUNCT"; u "SYM"; u "X"] ++ u ")")]
        else []
    end.
  Definition expr_checks (n : qnode) : list finding :=
    match n with
    | QN (PExpr qu i _ r fl) _ _ =>
        map (fun sm => mkFinding (fst sm) (snd sm) n) (layer_check i ++ qualifier_check i qu ++ pos_check i qu r fl)
    | _ => []
    end.
End Checks.
