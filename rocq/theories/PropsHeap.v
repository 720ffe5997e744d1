(** C25 (parent links of parsed trees), C53 (constructors). *)
From Coq Require Import String.
From Verif Require Import Base Regex LexRules Lexer Grammar Antlr Ast Builder Parser ModelTests
  SpellSpec BuilderFacts ParseSpec ParseFacts CoverSpec HeapFacts PropsParse.
Local Open Scope Z_scope.

(** ** C25 *)

(** Running [parse] on a heap [h] of already existing objects. *)
Theorem C25_parents : forall V C q h id h', env_ok V -> parser_parse_heap V C q h = Ok (id, h') ->
  exists n ids x, parse V (new_parser C) q = Ok n /\
    (* the returned object is the tree [parse] is specified to return, made of the objects
       [ids]; every object's parent is the object listing it as a child *)
    represents h' id n ids /\ nth_error h' id = Some x /\ h_parent x = None /\
    (* no object occurs twice; all are new; existing objects are not touched *)
    NoDup ids /\ (forall i, In i ids -> (List.length h <= i)%nat) /\
    (forall i, (i < List.length h)%nat -> nth_error h' i = nth_error h i).
Proof.
  intros V C q h id h' HV H. unfold parser_parse_heap in H. unfold parse, parser_parse. cbn [snd new_parser qp_cfg].
  destruct (well_formed_dec q) as [Hw|Hw].
  - destruct (parse_body_wf (fun t => build_heap (e_penv V) C t h) V q HV Hw) as (t & Ht & Hb). rewrite Hb in H. clear Hb.
    destruct (parse_body_wf (build_tree (e_penv V) C) V q HV Hw) as (t' & Ht' & Hb). rewrite Ht in Ht'. injection Ht' as <-. rewrite Hb.
    destruct (well_formed_outcome (e_penv V) C q t (proj2 Hw) Ht) as [(n & _ & _ & D)|(_ & e & Hf)].
    + rewrite (build_heap_ok _ _ _ _ _ D) in H. rewrite (build_tree_ok _ _ _ _ D).
      destruct (alloc new_obj set_loc_obj (enableSourceLocations C) n h) as [h2 id2] eqn:Ha. cbn in H. injection H as -> ->.
      destruct (alloc_heap _ _ _ _ _ Ha) as (ids & x & (A1 & A2 & A3 & A4) & B & D' & F).
      exists (with_locs (enableSourceLocations C) n), ids, x. cbn [handle]. split; [reflexivity|]. split; [exact B|]. split; [exact D'|].
      split; [exact F|]. split; [exact A3|]. split; [intros i Hi; apply A4; exact Hi|exact A2].
    + exfalso. revert H. unfold build_heap, run_builder. rewrite <- (at_loc_self C) at 1. rewrite Hf. cbn. destruct e; discriminate.
  - destruct (parse_body_not_wf (fun t => build_heap (e_penv V) C t h) V q HV Hw) as (e & es & _ & Hb). rewrite Hb in H. discriminate.
Qed.
(** The object-level parser succeeds whenever the tree-level one does. *)
Theorem C25_succeeds : forall V C q h, env_ok V ->
  ((exists r, parser_parse_heap V C q h = Ok r) <-> (exists n, parse V (new_parser C) q = Ok n)).
Proof.
  intros V C q h HV. split.
  - intros ((id, h') & H). destruct (C25_parents _ _ _ _ _ _ HV H) as (n & _ & _ & Hn & _). eauto.
  - intros (n & Hn). destruct (parse_outcome V (new_parser C) q HV) as [(n' & Ha & _ & (t & Ht & Hy) & _)|(_ & m & Hm)]; [|congruence].
    unfold parser_parse_heap. destruct (parse_body_wf (fun t => build_heap (e_penv V) C t h) V q HV (proj1 Ha)) as (t' & Ht' & ->).
    rewrite Ht in Ht'. injection Ht' as <-. cbn [new_parser qp_cfg] in Hy. rewrite (build_heap_ok _ _ _ _ _ Hy).
    destruct (alloc _ _ _ _ _). cbn. eauto.
Qed.

Example C25_witness : exists h', parser_parse_heap some_env (default_cfg true) (u "('a' | [x='b'])* within s") [mkH PWildcard None [] None]
  = Ok (8%nat, h') /\ map h_parent h' =
    [None; Some 2; Some 5; Some 4; Some 5; Some 6; Some 8; Some 8; None]%nat.
Proof. eexists. split; vm_compute; reflexivity. Qed.

(** ** C53 *)
Theorem C53_children : forall p children child h h' n, init_node p children child h = (h', n) ->
  (forall i, In i (children ++ match child with Some c => [c] | None => [] end) -> (i < List.length h)%nat) ->
  let cs := children ++ match child with Some c => [c] | None => [] end in
  (* a new object *)
  n = List.length h /\ List.length h' = S (List.length h) /\
  nth_error h' n = Some (mkH p None cs None) /\
  (* its children keep everything but their parent *)
  (forall i x, In i cs -> nth_error h i = Some x ->
     nth_error h' i = Some (mkH (h_payload x) (h_loc x) (h_children x) (Some n))) /\
  (* nothing else changes *)
  (forall i x, ~ In i cs -> nth_error h i = Some x -> nth_error h' i = Some x).
Proof.
  intros p children child h h' n H Hb cs. apply init_node_spec in H. cbv zeta in H. fold cs in H, Hb. destruct H as (-> & Hl & Hin & Hout & Hn).
  split; [reflexivity|]. split; [exact Hl|]. split; [apply Hn; intros Hx; apply Hb in Hx; lia|].
  split; intros i x Hi Hx; assert (Hlt : (i < List.length h)%nat) by (apply nth_error_Some; congruence).
  - rewrite (Hin i Hlt Hi), Hx. reflexivity.
  - rewrite (Hout i Hlt Hi). exact Hx.
Qed.
(** Assigning [node.location] changes nothing else. *)
Theorem C53_location : forall n l h, List.length (set_loc_h n l h) = List.length h /\
  (forall x, nth_error h n = Some x -> exists x', nth_error (set_loc_h n l h) n = Some x' /\ h_loc x' = l /\ h_payload x' = h_payload x /\ h_children x' = h_children x /\ h_parent x' = h_parent x) /\
  (forall i, i <> n -> nth_error (set_loc_h n l h) i = nth_error h i).
Proof.
  intros n l h. unfold set_loc_h. split; [apply upd_length|]. split.
  - intros x Hx. rewrite upd_nth, Nat.eqb_refl, Hx. eexists. split; [reflexivity|]. repeat split.
  - intros i Hi. rewrite upd_nth. destruct (Nat.eqb_spec i n); [contradiction|reflexivity].
Qed.
(** Blank: no character, or only characters [str.isspace] accepts. *)
Theorem C53_expression : forall qu i op r fl, exists qu' fl',
  mk_expression qu i op r fl = PExpr qu' i op r fl' /\
  (qu' = None <-> qu = None \/ exists s, qu = Some s /\ Forall (fun c => is_space_char c = true) s) /\
  (forall s, qu' = Some s -> qu = Some s) /\
  (fl' = None <-> fl = None \/ exists S, fl = Some S /\ forall f, flag_in f S = false) /\
  (forall S, fl' = Some S -> fl = Some S).
Proof.
  intros qu i op r fl. unfold mk_expression. eexists. eexists. split; [reflexivity|]. split; [|split; [|split]].
  - destruct qu as [[|a s]|].
    + split; [|reflexivity]. intros _. right. exists []. split; [reflexivity|constructor].
    + unfold isspace. destruct (forallb is_space_char (a :: s)) eqn:Hf; cbn [andb negb].
      * split; [|intros _; try reflexivity]. intros _. right. exists (a :: s). split; [reflexivity|]. apply Forall_forall. apply forallb_forall. exact Hf.
      * split; [discriminate|]. intros [H|(s' & H & Hs)]; [discriminate|]. injection H as <-.
        exfalso. rewrite Forall_forall in Hs. apply forallb_forall in Hs. congruence.
    + split; [left; reflexivity|reflexivity].
  - destruct qu as [[|a s]|]; try discriminate. intros s'. destruct (isspace (a :: s)); [discriminate|]. intros H. exact H.
  - destruct fl as [[a b c d]|]; [|split; [left; reflexivity|reflexivity]]. unfold flags_nonempty. cbn.
    destruct (a || b || c || d) eqn:Ho.
    + split; [discriminate|]. intros [H|(S & H & Hs)]; [discriminate|]. injection H as <-.
      pose proof (Hs CASE_INSENSITIVE) as H1. pose proof (Hs CASE_SENSITIVE) as H2. pose proof (Hs LITERAL_MATCHING) as H3. pose proof (Hs IGNORE_DIACRITICS) as H4.
      cbn in *. subst. discriminate.
    + split; [|reflexivity]. intros _. right. eexists. split; [reflexivity|]. apply Bool.orb_false_elim in Ho. destruct Ho as [Ho ->].
      apply Bool.orb_false_elim in Ho. destruct Ho as [Ho ->]. apply Bool.orb_false_elim in Ho. destruct Ho as [-> ->]. intros []; reflexivity.
  - destruct fl as [s|]; [|discriminate]. destruct (flags_nonempty s); [|discriminate]. intros S H. exact H.
Qed.
(** The characters [str.isspace] accepts: Unicode's White_Space and the four information separators. *)
Definition white_space : list N :=
  [9; 10; 11; 12; 13; 28; 29; 30; 31; 32; 133; 160; 5760; 8192; 8193; 8194; 8195; 8196; 8197; 8198; 8199; 8200; 8201; 8202; 8232; 8233; 8239; 8287; 12288]%N.
Theorem C53_blank : forall s, isspace s = true <-> s <> [] /\ Forall (fun c => In c white_space) s.
Proof.
  assert (Hc : forall c, is_space_char c = true <-> In c white_space).
  { intros c. split.
    - intros H. unfold is_space_char in H.
      assert (Hr : (9 <= c <= 13 \/ 28 <= c <= 32 \/ c = 133 \/ c = 160 \/ c = 5760 \/ 8192 <= c <= 8202 \/ c = 8232 \/ c = 8233 \/ c = 8239 \/ c = 8287 \/ c = 12288)%N) by lia.
      clear H. unfold white_space. cbn [In]. lia.
    - unfold white_space. cbn [In]. intros H. repeat destruct H as [<-|H]; try reflexivity. contradiction. }
  intros [|a s]; [split; [discriminate|intros [H _]; contradiction]|]. cbn [isspace].
  change (isspace (a :: s)) with (forallb is_space_char (a :: s)). rewrite forallb_forall, Forall_forall. split.
  - intros H. split; [discriminate|]. intros c Hi. apply Hc, H, Hi.
  - intros [_ H] c Hi. apply Hc, H, Hi.
Qed.
Example C53_witness : init_node PSequence [0; 1]%nat (Some 2%nat) [mkH PWildcard None [] (Some 7%nat); mkH PNot None [] None; mkH PWildcard None [] None; mkH POr None [] None]
  = ([mkH PWildcard None [] (Some 4); mkH PNot None [] (Some 4); mkH PWildcard None [] (Some 4); mkH POr None [] None;
      mkH PSequence None [0; 1; 2] None], 4)%nat /\
  mk_expression (Some (u "  ")) (u "x") EQUALS [] (Some no_flags) = PExpr None (u "x") EQUALS [] None.
Proof. split; reflexivity. Qed.
