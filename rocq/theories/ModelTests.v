(** The repository's own test cases (tests/regression, tests/validation) replayed on
    the model.  These are tests of the model, not proofs of properties.
    Generated by tools/gen_model_tests.py. *)
From Coq Require Import String.
From Verif Require Import Base LexRules Lexer Grammar Antlr Ast Builder Parser Validation.

(** An environment: identity normalisation, default digit limit, and one listener
    call at the EOF token for queries outside the grammar. *)
Definition test_env : env :=
  mkEnv (mkPEnv (fun _ s => s) 4300 true)
        (fun q => [mkCall (Some (eof_token q)) 1 0 (u "no viable alternative")]).
Definition q2 (s : string) : pystr :=   (* backquotes stand for double quotes *)
  map (fun c => if N.eqb c 96 then 34%N else c) (u s).
Definition parses (q : pystr) : bool :=
  match fcsql_parse test_env q true with Ok _ => true | Raise _ => false end.

(** tests/regression/valid *)
Definition valid_queries : list pystr := ([
  [91; 97; 116; 116; 114; 61; 39; 102; 108; 97; 103; 103; 101; 100; 32; 114; 101; 103; 101; 120; 112; 39; 47; 108; 32; 38; 32; 97; 116; 116; 114; 33; 61; 39; 117; 110; 102; 108; 97; 103; 103; 101; 100; 32; 114; 101; 103; 101; 120; 112; 39; 93];
  [34; 97; 34; 32; 124; 32; 39; 98; 39];
  [39; 34; 97; 34; 32; 111; 114; 32; 92; 39; 98; 92; 39; 39];
  [40; 39; 97; 32; 115; 101; 113; 117; 101; 110; 99; 101; 32; 43; 32; 39; 123; 49; 44; 53; 125; 32; 39; 111; 112; 116; 105; 111; 110; 97; 108; 92; 110; 92; 92; 39; 63; 41];
  [34; 100; 111; 103; 115; 34; 32; 91; 93; 123; 51; 44; 125; 32; 34; 99; 97; 116; 115; 34];
  [91; 120; 45; 120; 120; 32; 61; 32; 34; 78; 79; 85; 78; 34; 93];
  [91; 112; 111; 115; 58; 121; 32; 61; 32; 34; 65; 68; 74; 34; 93];
  [91; 122; 58; 112; 111; 115; 32; 61; 32; 34; 65; 68; 74; 34; 93];
  [91; 122; 58; 112; 111; 115; 32; 61; 32; 34; 65; 68; 74; 34; 32; 124; 32; 113; 58; 112; 111; 115; 32; 61; 32; 34; 65; 68; 74; 34; 93];
  [91; 116; 101; 120; 116; 32; 61; 32; 39; 102; 111; 111; 39; 93];
  [91; 108; 32; 61; 32; 39; 102; 111; 111; 39; 93];
  [34; 92; 92; 34];
  [34; 92; 34; 34];
  [34; 92; 39; 34];
  [34; 92; 110; 34];
  [34; 92; 116; 34];
  [34; 92; 117; 48; 48; 102; 54; 34];
  [34; 92; 117; 48; 48; 102; 54; 100; 101; 34];
  [34; 79; 92; 117; 48; 48; 102; 54; 100; 101; 34];
  [34; 97; 92; 117; 48; 51; 48; 99; 34];
  [91; 102; 111; 111; 58; 116; 101; 120; 116; 32; 61; 32; 34; 98; 97; 114; 34; 93];
  [34; 92; 120; 52; 49; 34];
  [34; 92; 117; 48; 48; 52; 49; 34];
  [34; 92; 85; 48; 48; 48; 48; 48; 48; 52; 49; 34];
  [34; 120; 92; 120; 102; 102; 120; 34];
  [34; 120; 92; 120; 52; 49; 120; 34];
  [34; 120; 92; 117; 48; 48; 52; 49; 120; 34];
  [34; 120; 92; 85; 48; 48; 48; 48; 48; 48; 52; 49; 120; 34];
  [34; 92; 46; 34];
  [34; 92; 94; 34];
  [34; 92; 36; 34];
  [34; 92; 42; 34];
  [34; 92; 43; 34];
  [34; 92; 63; 34];
  [34; 92; 40; 34];
  [34; 92; 41; 34];
  [34; 92; 123; 34];
  [34; 92; 91; 34];
  [34; 92; 124; 34];
  [34; 92; 46; 92; 94; 92; 36; 92; 42; 92; 43; 92; 63; 92; 40; 92; 41; 92; 123; 92; 91; 92; 124; 34];
  [34; 46; 94; 36; 42; 43; 63; 40; 41; 123; 125; 91; 93; 124; 34];
  [34; 97; 40; 98; 124; 99; 41; 34];
  [34; 97; 92; 40; 98; 124; 99; 92; 41; 34];
  [34; 40; 92; 117; 48; 48; 102; 54; 100; 101; 124; 92; 34; 97; 92; 117; 48; 51; 48; 99; 92; 34; 41; 34];
  [34; 97; 34; 32; 124; 32; 39; 98; 39];
  [34; 97; 32; 116; 101; 115; 116; 32; 111; 102; 32; 113; 117; 111; 116; 101; 100; 32; 109; 117; 108; 116; 105; 45; 119; 111; 114; 100; 32; 101; 120; 112; 114; 34];
  [34; 68; 111; 103; 34; 32; 47; 105];
  [91; 119; 111; 114; 100; 32; 61; 32; 34; 68; 111; 103; 34; 47; 99; 93];
  [91; 112; 111; 115; 32; 61; 32; 34; 78; 79; 85; 78; 34; 93];
  [91; 112; 111; 115; 32; 33; 61; 32; 34; 78; 79; 85; 78; 34; 93];
  [91; 108; 101; 109; 109; 97; 32; 61; 32; 34; 119; 97; 108; 107; 34; 93];
  [34; 98; 108; 97; 117; 101; 124; 103; 114; 252; 110; 101; 34; 32; 91; 112; 111; 115; 32; 61; 32; 34; 78; 79; 85; 78; 34; 93]
])%N.
Example regression_valid : forallb parses valid_queries = true.
Proof. vm_compute. reflexivity. Qed.

(** tests/regression/invalid *)
Definition invalid_queries : list pystr := ([
  [34; 100; 111; 103; 115; 34; 32; 91; 93; 123; 51; 44; 48; 125; 32; 34; 99; 97; 116; 115; 34];
  [91; 45; 120; 120; 120; 32; 61; 32; 34; 78; 79; 85; 78; 34; 93]
])%N.
Example regression_invalid : forallb (fun q => negb (parses q)) invalid_queries = true.
Proof. vm_compute. reflexivity. Qed.


(** tests/validation/test_validation.py *)
Definition vld (q v : string) (r w : bool) := fcsql_validate test_env (fun _ => []) (q2 q) (u v) r w.
Example validate_true :
  forallb (fun q => match vld q "2.2" false false with Ok (VBool true) => true | _ => false end)
    ["`Banane`"; "[ text = `Banane` ]"; "[text=`Banane`] "; "[]"; "[ pos = `NOUN` ]{2,}";
     "[pos = `NOUN`]"]%string = true.
Proof. vm_compute. reflexivity. Qed.
Example validate_false :
  forallb (fun q => match vld q "2.2" false false with Ok (VBool false) => true | _ => false end)
    [""; "[ "; "[ test = `Banane` ]"]%string = true.
Proof. vm_compute. reflexivity. Qed.
Example validate_version : exists m, vld "[]" "1.0" false false = Raise (ValueErrorExn m).
Proof. eexists. vm_compute. reflexivity. Qed.
Example validate_list_ok : vld "[]" "2.2" true false = Ok (VList []).
Proof. vm_compute. reflexivity. Qed.
(** position and fragment of the error at the end of the input *)
Example validate_list_syntax :
  exists m, vld "[" "2.2" true false
  = Ok (VList [mkErr m (Some (u "syntax-error")) (Some (PosLoc (mkLoc 1 1))) (Some (u "["))]).
Proof. eexists. vm_compute. reflexivity. Qed.
Example validate_list_error :
  vld "[post = `NOUN`]" "2.2" true false
  = Ok (VList [mkErr (u "Unknown layer identifier 'post'!") (Some (u "validation-error"))
                     (Some (PosLoc (mkLoc 1 14))) (Some (q2 "post = `NOUN`"))]).
Proof. vm_compute. reflexivity. Qed.

(** errors and warnings of a collecting validator *)
Definition run_v (C : vcfg) (q : string) : option (list pystr * list pystr * option bool) :=
  match fcsql_parse test_env (q2 q) true with
  | Ok n => let (s, r) := validator_validate (fun _ => u "L") C n (Some (q2 q)) (new_validator None) in
            Some (map ed_message (v_errors s), map ed_message (v_warnings s),
                  match r with inr b => Some b | inl _ => None end)
  | Raise _ => None
  end.
Example collect_two :
  run_v (mkVCfg None None false false) "[ post = `NOUN`] [lemmas = `der`]"
  = Some ([u "Unknown layer identifier 'post'!"; u "Unknown layer identifier 'lemmas'!"], [], Some false).
Proof. vm_compute. reflexivity. Qed.
Example raise_first :
  run_v (mkVCfg None None true false) "[ post = `NOUN`] [lemmas = `der`]" = Some ([], [], None).
Proof. vm_compute. reflexivity. Qed.
Example custom_allowed :
  run_v (mkVCfg (Some [u "post"]) None true false) "[ post = `NOUN`]" = Some ([], [], Some true).
Proof. vm_compute. reflexivity. Qed.
Example custom_not_allowed :
  run_v (mkVCfg (Some [u "lemmas"]) None true false) "[ post = `NOUN`]" = Some ([], [], None).
Proof. vm_compute. reflexivity. Qed.
Example qualifiers :
  map (fun l => run_v (mkVCfg None l true false) "[ stts:pos = `NNS`]")
      [None; Some [(u "pos", None)]; Some [(u "pos", Some [u "ud17"; u "xyz"])];
       Some [(u "pos", Some [u "ud17"; u "stts"])]]
  = [Some ([], [], Some true); Some ([], [], None); Some ([], [], None); Some ([], [], Some true)].
Proof. vm_compute. reflexivity. Qed.
Example layer_and_qualifier :
  run_v (mkVCfg (Some [u "abc"]) (Some [(u "pos", Some [u "ud17"; u "stts"])]) false false)
        "[ stts:pos = `NNS`]"
  = Some ([u "Unknown layer identifier 'pos' (only allowed: L)!"], [], Some false).
Proof. vm_compute. reflexivity. Qed.
Example likely_regex :
  map (fun s => is_likely_a_regex (u s))
      ["NOUN"; "multiple words"; "^NOUN"; "NOUN$"; "NOUN?"; "(NOUN)"; "N[O]UN"; "with\ escapes";
       "test."; "test?"]%string
  = [false; false; true; true; true; true; true; true; true; true].
Proof. vm_compute. reflexivity. Qed.
Example pos_warning :
  run_v (mkVCfg None None false false) "[ pos = `NNS`]"
  = Some ([], [u "Layer 'pos' without qualifier should use UD17 POS tags, found 'NNS' (recommended to only use: L)"],
          Some true).
Proof. vm_compute. reflexivity. Qed.
Example pos_warning_as_error :
  option_map snd (run_v (mkVCfg None None false true) "[ pos = `NNS`]") = Some (Some false)
  /\ run_v (mkVCfg None None true true) "[ pos = `ART`]" = Some ([], [], None).
Proof. vm_compute. split; reflexivity. Qed.
Example word_layer :
  run_v (mkVCfg None None false false) "[ word = `test` ]"
  = Some ([], [u "Usage of legacy(?) layer 'word'. Did you mean 'text' instead?"], Some true).
Proof. vm_compute. reflexivity. Qed.
