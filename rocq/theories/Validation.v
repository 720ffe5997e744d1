(** validation.py and [fcsql.validate] (__init__.py:116-181). *)
From Coq Require Import String.
From Verif Require Import Base LexRules Lexer Grammar Antlr Ast Builder Parser.
Local Open Scope Z_scope.

(** Configuration of an [FCSQLValidator], validation.py:55-90, 356-372. *)
Record vcfg := mkVCfg {
  allowed_layer_identifiers : option (list pystr);
  allowed_layer_qualifiers : option (list (pystr * option (list pystr)));
  raise_at_first_violation : bool; warnings_as_errors : bool }.

(** Mutable attributes of a validator ([stack]: head = top). *)
Record vstate := mkV { v_stack : list qnode; v_query : option pystr;
                       v_errors : list error_detail; v_warnings : list error_detail }.

(** [SpecificationValidationError], validation.py:39-43 *)
Record spec_error := mkSpec { se_message : pystr; se_node : qnode; se_fragment : option pystr }.

Definition vout : Type := outcome (S:=vstate) (E:=spec_error) (R:=unit).

(** Result of a method without return value. *)
Definition vact : Type := vstate * (spec_error + unit).
Definition vseq (a : vact) (k : vstate -> vact) : vact :=
  match a with (s, inr _) => k s | (s, inl e) => (s, inl e) end.

(** [fragment] of validation.py:155-157, 185-187 *)
Definition fragment_of (q : option pystr) (n : qnode) : option pystr :=
  match q with
  | Some ((_ :: _) as s) => match q_loc n with
                          | Some l => Some (slice s (l_start l) (l_stop l))
                          | None => None
                          end
  | _ => None
  end.

(** [validation_error], validation.py:144-169 *)
Definition validation_error (C : vcfg) (n : qnode) (msg : pystr) (s : vstate) : vact :=
  let fr := fragment_of (v_query s) n in
  if raise_at_first_violation C then (s, inl (mkSpec msg n fr))
  else (mkV (v_stack s) (v_query s)
            (v_errors s ++ [mkErr msg (Some (u "validation-error")) (option_map PosLoc (q_loc n)) fr])
            (v_warnings s), inr tt).

(** [validation_warning], validation.py:171-200 *)
Definition validation_warning (C : vcfg) (n : qnode) (msg : pystr) (s : vstate) : vact :=
  let fr := fragment_of (v_query s) n in
  if warnings_as_errors C && raise_at_first_violation C then (s, inl (mkSpec msg n fr))
  else (mkV (v_stack s) (v_query s) (v_errors s)
            (v_warnings s ++ [mkErr msg (Some (u "validation-warning")) (option_map PosLoc (q_loc n)) fr]),
        inr tt).

(** [parent_node], validation.py:204-215 *)
Definition parent_node (s : vstate) : option qnode := hd_error (v_stack s).

(** The [visit_] methods of [Validator], validation.py:217-287:
    push the node, visit the children, pop. *)
Definition with_stack (n : qnode) (sup : vstate -> vout) (s : vstate) : vout :=
  match sup (mkV (n :: v_stack s) (v_query s) (v_errors s) (v_warnings s)) with
  | (s', inr r) => (mkV (tl (v_stack s')) (v_query s') (v_errors s') (v_warnings s'), inr r)
  | (s', inl e) => (s', inl e)
  end.

(** validation.py:293-314 *)
Definition UNIVERSAL_POS_TAGS : list pystr :=
  [u "ADJ"; u "ADV"; u "INTJ"; u "NOUN"; u "PROPN"; u "VERB"; u "ADP"; u "AUX"; u "CCONJ"; u "DET";
   u "NUM"; u "PART"; u "PRON"; u "SCONJ"; u "PUNCT"; u "SYM"; u "X"].

(** [re.escape]: the characters Python escapes (re._special_chars_map). *)
Definition re_special (c : N) : bool :=
  char_in c (u "()[]{}?*+-|^$\.&~# " ++ [9; 10; 13; 11; 12]%N).
Definition re_escape (s : pystr) : pystr :=
  flat_map (fun c => if re_special c then [92%N; c] else [c]) s.
(** [is_likely_a_regex], validation.py:322-337 *)
Definition is_likely_a_regex (value : pystr) : bool :=
  let v := filter (fun c => negb (N.eqb c 32)) value in
  negb (str_eqb v (re_escape v)).

(** validation.py:346-354 *)
Definition KNOWN_LEGACY_LAYER_IDENTIFIER : list pystr := [u "word"].
Definition KNOWN_LAYER_IDENTIFIERS : list pystr :=
  [u "text"; u "lemma"; u "pos"; u "orth"; u "norm"; u "phonetic"].

Section FCSQLValidator.
  (** [repr] of a list of strings (only used in messages). *)
  Variable repr_list : list pystr -> pystr.
  Variable C : vcfg.

  Definition quote_ (s : pystr) : pystr := u "'" ++ s ++ u "'".

  (** First block of [visit_Expression], validation.py:377-392 *)
  Definition check_identifier (n : qnode) (ident : pystr) (s : vstate) : vact :=
    match allowed_layer_identifiers C with
    | Some ((_ :: _) as allowed) =>
        if str_in ident allowed then (s, inr tt)
        else validation_error C n (u "Unknown layer identifier " ++ quote_ ident ++ u " (only allowed: "
                                     ++ repr_list allowed ++ u ")!") s
    | _ =>
        if str_in ident KNOWN_LAYER_IDENTIFIERS then (s, inr tt)
        else if str_in ident KNOWN_LEGACY_LAYER_IDENTIFIER then
          validation_warning C n (u "Usage of legacy(?) layer " ++ quote_ ident
                                    ++ u ". Did you mean 'text' instead?") s
        else if negb (startswith (u "x-") ident) then
          validation_error C n (u "Unknown layer identifier " ++ quote_ ident ++ u "!") s
        else validation_warning C n (u "Usage of custom layer with identifier " ++ quote_ ident) s
    end.

  (** The lookup loop, validation.py:396-400 *)
  Fixpoint lookup_qualifiers (l : list (pystr * option (list pystr))) (ident : pystr)
    : option (list pystr) :=
    match l with
    | [] => None
    | (i, qs) :: l' => if str_eqb i ident then qs else lookup_qualifiers l' ident
    end.

  (** Second block, validation.py:394-416 *)
  Definition check_qualifier (n : qnode) (qual : option pystr) (ident : pystr) (s : vstate) : vact :=
    match qual, allowed_layer_qualifiers C with
    | Some ((_ :: _) as q), Some ((_ :: _) as l) =>
        match lookup_qualifiers l ident with
        | None =>
            validation_error C n (u "Usage of layer qualifier " ++ quote_ q
              ++ u " which is not allowed for layer with identifier " ++ quote_ ident ++ u "!") s
        | Some qs =>
            if str_in q qs then (s, inr tt)
            else validation_error C n (u "Usage of unknown layer qualifier " ++ quote_ q
                   ++ u " for layer with identifier " ++ quote_ ident ++ u " (only allowed: "
                   ++ repr_list qs ++ u ")!") s
        end
    | _, _ => (s, inr tt)
    end.

  (** Third block, validation.py:418-427 *)
  Definition check_pos (n : qnode) (qual : option pystr) (ident regex : pystr) (fl : option flags)
      (s : vstate) : vact :=
    if str_eqb ident (u "pos") && negb (truthy qual) then
      if negb (str_in regex UNIVERSAL_POS_TAGS) && negb (is_likely_a_regex regex)
         && negb (match fl with Some f => flags_nonempty f | None => false end) then
        validation_warning C n (u "Layer " ++ quote_ ident
          ++ u " without qualifier should use UD17 POS tags, found " ++ quote_ regex
          ++ u " (recommended to only use: " ++ repr_list UNIVERSAL_POS_TAGS ++ u ")") s
      else (s, inr tt)
    else (s, inr tt).

  (** [FCSQLValidator.visit_Expression], validation.py:376-429 *)
  Definition visit_Expression (sup : vstate -> vout) (n : qnode) (s : vstate) : vout :=
    match q_payload n with
    | PExpr qual ident _ regex fl =>
        match vseq (check_identifier n ident s) (fun s1 =>
              vseq (check_qualifier n qual ident s1) (fun s2 =>
              check_pos n qual ident regex fl s2)) with
        | (s', inr _) => with_stack n sup s'
        | (s', inl e) => (s', inl e)
        end
    | _ => with_stack n sup s      (* not an Expression: never dispatched here *)
    end.

  (** Method table of the class: every adapter method is overridden by
      [Validator]; [visit_Expression] again by [FCSQLValidator]. *)
  Definition validator_methods : methods (S:=vstate) (E:=spec_error) (R:=unit) :=
    fun name =>
      if str_eqb name (u "visit_Expression") then Some visit_Expression
      else if str_in name adapter_names then Some (fun sup n s => with_stack n sup s)
      else None.

  (** [validate], validation.py:92-120: new state and [True]/[False] or the exception. *)
  Definition validator_validate (n : qnode) (q : option pystr) (s : vstate) : vstate * (spec_error + bool) :=
    let s0 := mkV (v_stack s) (match q with Some _ => q | None => v_query s end) [] [] in
    match visit validator_methods n s0 with
    | (s', inl e) => (s', inl e)
    | (s', inr _) =>
        let issues := (List.length (v_errors s')
                       + if warnings_as_errors C then List.length (v_warnings s') else 0)%nat in
        (s', inr (issues =? 0)%nat)
    end.

  (** [is_valid], validation.py:122-142 *)
  Definition validator_is_valid (n : qnode) (q : option pystr) (s : vstate) : vstate * bool :=
    match validator_validate n q s with
    | (s', inr b) => (s', b)
    | (s', inl _) => (s', false)
    end.
End FCSQLValidator.

(** A fresh validator, validation.py:76-90 *)
Definition new_validator (q : option pystr) : vstate := mkV [] q [] [].

(** [VALIDATORS], validation.py:434-440 *)
Definition VALIDATORS (version : pystr) : bool := str_eqb version (u "2.2").

Inductive vresult := VBool (b : bool) | VList (l : list error_detail).

(** [fcsql.validate], __init__.py:116-181.  Simplification: the ValueError message
    quotes the version without [repr]. *)
Definition fcsql_validate (V : env) (repr_list : list pystr -> pystr) (q version : pystr)
    (return_errors wae : bool) : res vresult :=
  if negb (VALIDATORS version) then
    Raise (ValueErrorExn (u "No validator found for version=" ++ version ++ u "!"))
  else
    let (P, r) := parser_parse V (new_parser (default_cfg true)) q in
    let C := mkVCfg None None (negb return_errors) wae in
    match r with
    | Raise (QueryParserError m) =>
        if negb return_errors then Ok (VBool false)
        else Ok (VList ((if startswith (u "unable to parse query: ") m then []
                         else [mkErr m None None None]) ++ qp_errors P))
    | Raise e => Raise e
    | Ok n =>
        match validator_validate repr_list C n None (new_validator (Some q)) with
        | (_, inl _) => Ok (VBool false)
        | (s, inr _) =>
            let errs := v_errors s ++ (if wae then v_warnings s else []) in
            Ok (if return_errors then VList errs else VBool (match errs with [] => true | _ => false end))
        end
    end.
