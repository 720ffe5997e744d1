"""Generate rocq/theories/ModelTests.v: the repository's own test cases replayed on the model."""
from pathlib import Path
R=Path('/repo/tests/regression')
def load(d):
    out=[]
    for f in sorted((R/d).glob('test*.txt')):
        for q in f.read_text().strip().split('\n'): out.append((f.name,q))
    return out
def lst(q): return '['+'; '.join(str(ord(c)) for c in q)+']'
o=['''(** The repository's own test cases (tests/regression, tests/validation) replayed on
    the model.  These are tests of the model, not proofs of properties.
    Generated by tools/gen_model_tests.py. *)
From Coq Require Import String.
From Verif Require Import Base LexRules Lexer Grammar Antlr Ast Builder Parser Validation.

(** An environment: identity normalisation, default digit limit, and one listener
    call at the EOF token for queries outside the grammar. *)
Definition test_env : env :=
  mkEnv (mkPEnv (fun _ s => s) 4300 true)
        (fun q => [mkCall (Some (eof_token q)) 1 0 (u "no viable alternative")]).
Definition q2 (s : string) : pystr :=   (* backquotes stand for double quotes *)
  map (fun c => if N.eqb c 96 then 34%N else c) (u s).
Definition parses (q : pystr) : bool :=
  match fcsql_parse test_env q true with Ok _ => true | Raise _ => false end.
''']
o.append('(** tests/regression/valid *)\nDefinition valid_queries : list pystr := ([')
o.append(';\n'.join('  '+lst(q) for _,q in load('valid')))
o.append('])%N.\nExample regression_valid : forallb parses valid_queries = true.\nProof. vm_compute. reflexivity. Qed.\n')
o.append('(** tests/regression/invalid *)\nDefinition invalid_queries : list pystr := ([')
o.append(';\n'.join('  '+lst(q) for _,q in load('invalid')))
o.append('])%N.\nExample regression_invalid : forallb (fun q => negb (parses q)) invalid_queries = true.\nProof. vm_compute. reflexivity. Qed.\n')
o.append('''
(** tests/validation/test_validation.py *)
Definition vld (q v : string) (r w : bool) := fcsql_validate test_env (fun _ => []) (q2 q) (u v) r w.
Example validate_true :
  forallb (fun q => match vld q "2.2" false false with Ok (VBool true) => true | _ => false end)
    ["`Banane`"; "[ text = `Banane` ]"; "[text=`Banane`] "; "[]"; "[ pos = `NOUN` ]{2,}";
     "[pos = `NOUN`]"]%string = true.
Proof. vm_compute. reflexivity. Qed.
Example validate_false :
  forallb (fun q => match vld q "2.2" false false with Ok (VBool false) => true | _ => false end)
    [""; "[ "; "[ test = `Banane` ]"]%string = true.
Proof. vm_compute. reflexivity. Qed.
Example validate_version : exists m, vld "[]" "1.0" false false = Raise (ValueErrorExn m).
Proof. eexists. vm_compute. reflexivity. Qed.
Example validate_list_ok : vld "[]" "2.2" true false = Ok (VList []).
Proof. vm_compute. reflexivity. Qed.
(** position and fragment of the error at the end of the input *)
Example validate_list_syntax :
  exists m, vld "[" "2.2" true false
  = Ok (VList [mkErr m (Some (u "syntax-error")) (Some (PosLoc (mkLoc 1 1))) (Some (u "["))]).
Proof. eexists. vm_compute. reflexivity. Qed.
Example validate_list_error :
  vld "[post = `NOUN`]" "2.2" true false
  = Ok (VList [mkErr (u "Unknown layer identifier 'post'!") (Some (u "validation-error"))
                     (Some (PosLoc (mkLoc 1 14))) (Some (q2 "post = `NOUN`"))]).
Proof. vm_compute. reflexivity. Qed.

(** errors and warnings of a collecting validator *)
Definition run_v (C : vcfg) (q : string) : option (list pystr * list pystr * option bool) :=
  match fcsql_parse test_env (q2 q) true with
  | Ok n => let (s, r) := validator_validate (fun _ => u "L") C n (Some (q2 q)) (new_validator None) in
            Some (map ed_message (v_errors s), map ed_message (v_warnings s),
                  match r with inr b => Some b | inl _ => None end)
  | Raise _ => None
  end.
Example collect_two :
  run_v (mkVCfg None None false false) "[ post = `NOUN`] [lemmas = `der`]"
  = Some ([u "Unknown layer identifier 'post'!"; u "Unknown layer identifier 'lemmas'!"], [], Some false).
Proof. vm_compute. reflexivity. Qed.
Example raise_first :
  run_v (mkVCfg None None true false) "[ post = `NOUN`] [lemmas = `der`]" = Some ([], [], None).
Proof. vm_compute. reflexivity. Qed.
Example custom_allowed :
  run_v (mkVCfg (Some [u "post"]) None true false) "[ post = `NOUN`]" = Some ([], [], Some true).
Proof. vm_compute. reflexivity. Qed.
Example custom_not_allowed :
  run_v (mkVCfg (Some [u "lemmas"]) None true false) "[ post = `NOUN`]" = Some ([], [], None).
Proof. vm_compute. reflexivity. Qed.
Example qualifiers :
  map (fun l => run_v (mkVCfg None l true false) "[ stts:pos = `NNS`]")
      [None; Some [(u "pos", None)]; Some [(u "pos", Some [u "ud17"; u "xyz"])];
       Some [(u "pos", Some [u "ud17"; u "stts"])]]
  = [Some ([], [], Some true); Some ([], [], None); Some ([], [], None); Some ([], [], Some true)].
Proof. vm_compute. reflexivity. Qed.
Example layer_and_qualifier :
  run_v (mkVCfg (Some [u "abc"]) (Some [(u "pos", Some [u "ud17"; u "stts"])]) false false)
        "[ stts:pos = `NNS`]"
  = Some ([u "Unknown layer identifier 'pos' (only allowed: L)!"], [], Some false).
Proof. vm_compute. reflexivity. Qed.
Example likely_regex :
  map (fun s => is_likely_a_regex (u s))
      ["NOUN"; "multiple words"; "^NOUN"; "NOUN$"; "NOUN?"; "(NOUN)"; "N[O]UN"; "with\\ escapes";
       "test."; "test?"]%string
  = [false; false; true; true; true; true; true; true; true; true].
Proof. vm_compute. reflexivity. Qed.
Example pos_warning :
  run_v (mkVCfg None None false false) "[ pos = `NNS`]"
  = Some ([], [u "Layer 'pos' without qualifier should use UD17 POS tags, found 'NNS' (recommended to only use: L)"],
          Some true).
Proof. vm_compute. reflexivity. Qed.
Example pos_warning_as_error :
  option_map snd (run_v (mkVCfg None None false true) "[ pos = `NNS`]") = Some (Some false)
  /\\ run_v (mkVCfg None None true true) "[ pos = `ART`]" = Some ([], [], None).
Proof. vm_compute. split; reflexivity. Qed.
Example word_layer :
  run_v (mkVCfg None None false false) "[ word = `test` ]"
  = Some ([], [u "Usage of legacy(?) layer 'word'. Did you mean 'text' instead?"], Some true).
Proof. vm_compute. reflexivity. Qed.
''')
Path('/verif/rocq/theories/ModelTests.v').write_text('\n'.join(o))
