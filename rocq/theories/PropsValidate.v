(** C45-C47: [fcsql.validate]. *)
From Coq Require Import String.
From Verif Require Import Base Regex LexRules Lexer Grammar Antlr Ast Builder Parser Validation ModelTests
  SpellSpec BuilderFacts ParseSpec ParseFacts TreeSpec SitFacts AccessSpec ValidSpec PropsParse PropsTree PropsAccess PropsVisit ValidFacts PropsValid MessageFacts.
Local Open Scope Z_scope.

(** The validator used by [validate(q, warnings_as_errors=wae)]. *)
Definition plain_cfg (raise wae : bool) : vcfg := mkVCfg None None raise wae.
Lemma checks_modes repr_list r1 w1 r2 w2 : expr_checks repr_list (plain_cfg r1 w1) = expr_checks repr_list (plain_cfg r2 w2).
Proof. reflexivity. Qed.
Lemma validate_ok V repr_list q ver n wae : VALIDATORS ver = true -> parse V (new_parser (default_cfg true)) q = Ok n ->
  let fs := findings (expr_checks repr_list (plain_cfg false wae)) n in
  fcsql_validate V repr_list q ver true wae =
    Ok (VList (map (detail_of (Some q)) (of_sev Error fs) ++ if wae then map (detail_of (Some q)) (of_sev Warning fs) else [])) /\
  exists b, fcsql_validate V repr_list q ver false wae = Ok (VBool b) /\ (b = true <-> no_fatal repr_list (plain_cfg false wae) n).
Proof.
  intros Hv Hp fs. unfold fcsql_validate. rewrite Hv. cbn [negb]. unfold parse in Hp.
  destruct (parser_parse V (new_parser (default_cfg true)) q) as [P r]. cbn [snd] in Hp. subst r. split.
  - change (mkVCfg None None false wae) with (plain_cfg false wae).
    destruct (C37_collecting repr_list (plain_cfg false wae) n None (new_validator (Some q)) eq_refl) as (s' & b & -> & He & Hw & _). cbn [v_errors v_warnings] in *. rewrite He, Hw.
    cbn. reflexivity.
  - change (mkVCfg None None true wae) with (plain_cfg true wae).
    destruct (C38_raising repr_list (plain_cfg true wae) n None (new_validator (Some q)) eq_refl) as [A B]. change (findings (expr_checks repr_list (plain_cfg true wae)) n) with fs in A, B.
    destruct (first_fatal (plain_cfg true wae) fs) as [Hf|(a & f & c & Hs & Ha & Hf)].
    + destruct (A Hf) as (s' & -> & He & Hw). rewrite He. eexists. split; [reflexivity|]. cbn [app].
      assert (Hnf : no_fatal repr_list (plain_cfg false wae) n) by (intros f Hin; exact (proj1 (Forall_forall _ _) Hf f Hin)).
      split; [intros _; exact Hnf|]. intros _. destruct wae; [|reflexivity]. rewrite Hw. unfold in_force. cbn [new_validator v_query].
      destruct fs as [|f fs'] eqn:Hfs; [reflexivity|]. inversion Hf as [|? ? Hx _]; subst. unfold fatal in Hx. cbn in Hx. destruct (f_sev f); discriminate.
    + destruct (B a f c Hs Ha Hf) as (s' & -> & _). exists false. split; [reflexivity|]. split; [discriminate|]. intros Hn.
      assert (Hx : fatal (plain_cfg false wae) f = false) by (apply Hn; fold fs; rewrite Hs; apply in_or_app; right; left; reflexivity).
      unfold fatal in *. cbn in *. congruence.
Qed.
Lemma parse_fail_errors V q m : env_ok V -> parse V (new_parser (default_cfg true)) q = Raise (QueryParserError m) ->
  startswith syntax_prefix m = true -> syntax_errors V q <> [].
Proof.
  intros HV Hp Hm Hs. unfold parse, parser_parse in Hp. cbn [snd] in Hp. unfold parse_body in Hp. rewrite Hs in Hp.
  assert (Hw : well_formed q) by (apply (syntax_errors_none V q HV); exact Hs). destruct (antlr_tree q (proj2 Hw)) as (t & Ht & _). rewrite Ht in Hp.
  assert (Htm : tame (build_tree (e_penv V) (default_cfg true) t)) by (unfold build_tree; apply tame_map, tame_builder).
  cbn [new_parser qp_cfg] in Hp. destruct (build_tree (e_penv V) (default_cfg true) t) as [n|e]; [discriminate|]. unfold tame in Htm.
  destruct e; cbn [handle] in Hp; injection Hp as <-; unfold tame_exn in Htm; try contradiction; try (revert Hm; vm_compute; discriminate). rewrite Hm in Htm. discriminate.
Qed.
Lemma validate_fail V repr_list q ver m wae : env_ok V -> VALIDATORS ver = true -> parse V (new_parser (default_cfg true)) q = Raise (QueryParserError m) ->
  fcsql_validate V repr_list q ver false wae = Ok (VBool false) /\
  exists l, fcsql_validate V repr_list q ver true wae = Ok (VList l) /\ l <> [] /\
    (l = syntax_errors V q \/ (syntax_errors V q = [] /\ l = [mkErr m None None None])).
Proof.
  intros HV Hv Hp. pose proof (parse_fail_errors V q m HV Hp) as Hne. unfold fcsql_validate. rewrite Hv. cbn [negb].
  assert (HP : parser_parse V (new_parser (default_cfg true)) q = (mkParser (default_cfg true) (syntax_errors V q), Raise (QueryParserError m))).
  { unfold parse in Hp. unfold parser_parse in *. cbn [snd] in Hp. cbn [new_parser qp_cfg] in *. rewrite Hp. reflexivity. }
  rewrite HP. cbn [qp_errors]. split; [reflexivity|]. eexists. split; [reflexivity|]. unfold syntax_prefix in Hne.
  destruct (startswith (u "unable to parse query: ") m) eqn:Hs; cbn [app].
  - split; [auto|]. left. reflexivity.
  - split; [discriminate|]. right. destruct (syntax_errors V q) as [|e es] eqn:He; [split; reflexivity|]. exfalso.
    unfold parse, parser_parse, parse_body in Hp. cbn [snd] in Hp. rewrite He in Hp. cbn in Hp. injection Hp as <-.
    vm_compute in Hs. discriminate.
Qed.

(** ** C45 *)
Theorem C45_agree : forall V repr_list q ver wae, env_ok V ->
  (ver = u "2.2" /\ exists b l, fcsql_validate V repr_list q ver false wae = Ok (VBool b) /\
     fcsql_validate V repr_list q ver true wae = Ok (VList l) /\ (b = false <-> l <> [])) \/
  (ver <> u "2.2" /\ forall return_errors, exists m, fcsql_validate V repr_list q ver return_errors wae = Raise (ValueErrorExn m)).
Proof.
  intros V repr_list q ver wae HV. assert (Hv : VALIDATORS ver = true <-> ver = u "2.2") by (apply str_eqb_eq).
  destruct (VALIDATORS ver) eqn:He.
  - left. split; [apply Hv; reflexivity|]. destruct (C01_parse_total V (new_parser (default_cfg true)) q) as [(n & Hn)|(m & Hm)].
    + destruct (validate_ok V repr_list q ver n wae He Hn) as (Hl & b & Hb & Hiff). exists b. eexists. split; [exact Hb|]. split; [exact Hl|].
      set (fs := findings _ n) in *. unfold no_fatal in Hiff. fold fs in Hiff.
      assert (Hnil : map (detail_of (Some q)) (of_sev Error fs) ++ (if wae then map (detail_of (Some q)) (of_sev Warning fs) else []) = [] <-> b = true).
      { rewrite Hiff. unfold fatal. cbn [plain_cfg warnings_as_errors]. split.
        - intros H f Hf. apply app_eq_nil in H. destruct H as [H1 H2]. apply map_eq_nil in H1. rewrite of_sev_nil in H1. specialize (H1 f Hf).
          destruct (f_sev f) eqn:Hs; [congruence|]. destruct wae; [|reflexivity]. apply map_eq_nil in H2. rewrite of_sev_nil in H2. exfalso. exact (H2 f Hf Hs).
        - intros H. assert (H1 : of_sev Error fs = []) by (apply of_sev_nil; intros f Hf Hs; specialize (H f Hf); rewrite Hs in H; discriminate). rewrite H1. cbn.
          destruct wae; [|reflexivity]. assert (H2 : of_sev Warning fs = []) by (apply of_sev_nil; intros f Hf Hs; specialize (H f Hf); rewrite Hs in H; discriminate). rewrite H2. reflexivity. }
      rewrite Hnil. destruct b; split; congruence.
    + destruct (validate_fail V repr_list q ver m wae HV He Hm) as (Hb & l & Hl & Hne & _). exists false, l. split; [exact Hb|]. split; [exact Hl|]. split; auto.
  - right. split; [intros H; apply Hv in H; discriminate|]. intros b. unfold fcsql_validate. rewrite He. cbn. eauto.
Qed.
(** The list: the error findings (then the warnings, if they count) of the parsed query ... *)
Theorem C45_findings : forall V repr_list q wae n, parse V (new_parser (default_cfg true)) q = Ok n ->
  let fs := findings (expr_checks repr_list (plain_cfg false wae)) n in
  fcsql_validate V repr_list q (u "2.2") true wae =
    Ok (VList (map (detail_of (Some q)) (of_sev Error fs) ++ if wae then map (detail_of (Some q)) (of_sev Warning fs) else [])).
Proof. intros V repr_list q wae n Hp fs. exact (proj1 (validate_ok V repr_list q (u "2.2") n wae eq_refl Hp)). Qed.
(** ... or the syntax errors, or the one error of the tree builder. *)
Theorem C45_syntax : forall V repr_list q wae m, env_ok V -> parse V (new_parser (default_cfg true)) q = Raise (QueryParserError m) ->
  exists l, fcsql_validate V repr_list q (u "2.2") true wae = Ok (VList l) /\ l <> [] /\
    ((~ well_formed q /\ l = errors_after V (new_parser (default_cfg true)) q) \/ (well_formed q /\ l = [mkErr m None None None])).
Proof.
  intros V repr_list q wae m HV Hp. destruct (validate_fail V repr_list q (u "2.2") m wae HV eq_refl Hp) as (_ & l & Hl & Hne & Hc).
  exists l. split; [exact Hl|]. split; [exact Hne|]. rewrite <- (syntax_errors_none V q HV).
  destruct Hc as [->|(Hs & ->)]; [left|right; split; [exact Hs|reflexivity]]. split; [exact Hne|reflexivity].
Qed.
Example C45_witness :
  (exists l, fcsql_validate some_env (fun _ => []) (u "[foo='b' | word='c']") (u "2.2") true true = Ok (VList l) /\ List.length l = 2%nat) /\
  fcsql_validate some_env (fun _ => []) (u "[word='c']") (u "2.2") false false = Ok (VBool true) /\
  fcsql_validate some_env (fun _ => []) (u "[word='c']") (u "2.2") false true = Ok (VBool false) /\
  fcsql_validate some_env (fun _ => []) (u "'a'/iI") (u "2.2") false false = Ok (VBool false).
Proof. split; [eexists; split; vm_compute; reflexivity|]. split; [vm_compute; reflexivity|]. split; vm_compute; reflexivity. Qed.

(** ** C46 *)
Theorem C46_refines : forall V repr_list q wae, env_ok V ->
  fcsql_validate V repr_list q (u "2.2") false wae = Ok (VBool true) -> can_parse V q = Ok true.
Proof.
  intros V repr_list q wae HV H. unfold can_parse, fcsql_parse. fold (parse V (new_parser (default_cfg true)) q).
  destruct (C01_parse_total V (new_parser (default_cfg true)) q) as [(n & ->)|(m & Hm)]; [reflexivity|].
  destruct (validate_fail V repr_list q (u "2.2") m wae HV eq_refl Hm) as (Hb & _). congruence.
Qed.
Theorem C46_monotone : forall V repr_list q, env_ok V ->
  fcsql_validate V repr_list q (u "2.2") false true = Ok (VBool true) ->
  fcsql_validate V repr_list q (u "2.2") false false = Ok (VBool true).
Proof.
  intros V repr_list q HV H. destruct (C01_parse_total V (new_parser (default_cfg true)) q) as [(n & Hn)|(m & Hm)].
  - destruct (validate_ok V repr_list q (u "2.2") n true eq_refl Hn) as (_ & b & Hb & Hi). rewrite H in Hb. injection Hb as <-.
    destruct (validate_ok V repr_list q (u "2.2") n false eq_refl Hn) as (_ & b & Hb & Hi'). rewrite Hb. do 2 f_equal. apply Hi'.
    pose proof (proj1 Hi eq_refl) as Hnf. intros f Hf. specialize (Hnf f Hf). unfold fatal in *. destruct (f_sev f); [discriminate|reflexivity].
  - destruct (validate_fail V repr_list q (u "2.2") m true HV eq_refl Hm) as (Hb & _). congruence.
Qed.
(** A valid query has only known or custom layers; nothing else is checked by default. *)
Theorem C46_exact : forall V repr_list q n, parse V (new_parser (default_cfg true)) q = Ok n ->
  (fcsql_validate V repr_list q (u "2.2") false false = Ok (VBool true) <->
   forall m qu i op r fl, In m (preorder n) -> q_payload m = PExpr qu i op r fl ->
     In i known_layers \/ i = u "word" \/ custom_layer i).
Proof.
  intros V repr_list q n Hp. destruct (validate_ok V repr_list q (u "2.2") n false eq_refl Hp) as (_ & b & -> & Hi).
  transitivity (no_fatal repr_list (plain_cfg false false) n); [rewrite <- Hi; split; [intros H; injection H; auto|intros ->; reflexivity]|].
  assert (Hu : forall i, layer_unknown (plain_cfg false false) i <-> ~ In i known_layers /\ i <> u "word" /\ ~ custom_layer i).
  { intros i. unfold layer_unknown, restricted. cbn. split; [intros [(l & [H _] & _)|(_ & H)]; [discriminate|exact H]|]. intros H. right. split; [intros l [H' _]; discriminate|exact H]. }
  assert (Hq : forall i qu, ~ qualifier_unknown (plain_cfg false false) i qu).
  { intros i qu (q' & t & r & _ & _ & H & _). discriminate. }
  unfold no_fatal. split.
  - intros H m qu i op r fl Hm Hpl. destruct m as [p l ch]. cbn in Hpl. subst p.
    assert (Hne : ~ layer_unknown (plain_cfg false false) i).
    { intros Hun. destruct (proj2 (checks_errors repr_list (plain_cfg false false) qu i op r fl l ch) (or_introl Hun)) as (f & Hf & Hs).
      assert (Hin : In f (findings (expr_checks repr_list (plain_cfg false false)) n)).
      { unfold findings. apply in_flat_map. eexists. split; [|exact Hf]. apply filter_In. split; [exact Hm|reflexivity]. }
      apply H in Hin. unfold fatal in Hin. rewrite Hs in Hin. discriminate. }
    rewrite Hu in Hne. destruct (in_dec (list_eq_dec N.eq_dec) i known_layers) as [|Hk]; [auto|]. destruct (list_eq_dec N.eq_dec i (u "word")) as [|Hw]; [auto|].
    destruct (startswith (u "x-") i) eqn:Hx; [apply startswith_prefix in Hx; auto|]. exfalso. apply Hne. repeat split; auto. intros Hc. apply startswith_prefix in Hc. congruence.
  - intros H f Hf. unfold fatal. cbn. destruct (f_sev f) eqn:Hs; [|reflexivity]. exfalso. unfold findings in Hf. apply in_flat_map in Hf.
    destruct Hf as (m & Hm & Hf). apply filter_In in Hm. destruct Hm as [Hm _]. destruct m as [p l ch]. destruct p; try destruct Hf.
    assert (Hx : layer_unknown (plain_cfg false false) identifier \/ qualifier_unknown (plain_cfg false false) identifier qualifier) by (eapply checks_errors; eexists; split; eassumption).
    destruct Hx as [Hx|Hx]; [|exact (Hq _ _ Hx)]. rewrite Hu in Hx. specialize (H _ _ _ _ _ _ Hm eq_refl). tauto.
Qed.

(** ** C47 *)
Lemma preorder_sub : forall n m, In m (preorder n) -> subnode m n.
Proof.
  induction n as [p l ch IH] using qnode_ind'. intros m [<-|H]; [constructor|]. apply in_flat_map in H. destruct H as (c & Hc & Hm).
  econstructor; [exact Hc|]. rewrite Forall_forall in IH. exact (IH c Hc m Hm).
Qed.
Theorem C47_positions : forall V repr_list q n wae l d, env_ok V -> parse V (new_parser (default_cfg true)) q = Ok n ->
  fcsql_validate V repr_list q (u "2.2") true wae = Ok (VList l) -> In d l ->
  exists m loc f, subnode m n /\ q_class m = CExpression /\ q_loc m = Some loc /\
    In f (expr_checks repr_list (plain_cfg false wae) m) /\ ed_message d = f_msg f /\
    ed_type d = Some (match f_sev f with Error => u "validation-error" | Warning => u "validation-warning" end) /\
    ed_position d = Some (PosLoc loc) /\ ed_fragment d = Some (slice q (l_start loc) (l_stop loc)) /\
    0 <= l_start loc < l_stop loc /\ l_stop loc <= zlen q.
Proof.
  intros V repr_list q n wae l d HV Hp Hl Hd. rewrite (C45_findings V repr_list q wae n Hp) in Hl. injection Hl as <-.
  assert (Hd' : exists f, In f (findings (expr_checks repr_list (plain_cfg false wae)) n) /\ d = detail_of (Some q) f).
  { apply in_app_or in Hd. destruct Hd as [Hd|Hd]; [|destruct wae; [|destruct Hd]]; apply in_map_iff in Hd; destruct Hd as (f & <- & Hf);
      unfold of_sev in Hf; apply filter_In in Hf; exists f; (split; [apply Hf|reflexivity]). }
  destruct Hd' as (f & Hf & ->). unfold findings in Hf. apply in_flat_map in Hf. destruct Hf as (m & Hm & Hf). apply filter_In in Hm. destruct Hm as [Hm Hc].
  destruct (class_eq_dec (q_class m) CExpression) as [Hcl|]; [|discriminate]. apply preorder_sub in Hm.
  pose proof (C21_locations V _ q n m HV Hp Hm) as Hloc. cbn in Hloc. destruct Hloc as (loc & Hloc & Hb & Hz).
  assert (Hfm : f_node f = m).
  { destruct m as [p l' ch]. destruct p; try destruct Hf. unfold expr_checks in Hf. apply in_map_iff in Hf. destruct Hf as (sm & <- & _). reflexivity. }
  exists m, loc, f. unfold detail_of, text_of. cbn [ed_message ed_type ed_position ed_fragment]. rewrite Hfm, Hloc.
  destruct q as [|c q]; [unfold zlen in Hz; cbn in Hz; lia|]. repeat split; auto; lia.
Qed.
Example C47_witness : exists l d, fcsql_validate some_env (fun _ => []) (u "'x' [text='a' & foo = 'b' ]") (u "2.2") true false = Ok (VList l) /\
  l = [d] /\ ed_position d = Some (PosLoc (mkLoc 16 25)) /\ ed_fragment d = Some (u "foo = 'b'").
Proof. eexists. eexists. split; [vm_compute; reflexivity|]. split; [reflexivity|]. split; reflexivity. Qed.
(** A query that is valid as long as warnings are tolerated. *)
Example C46_witness : can_parse some_env (u "[word = 'a']") = Ok true /\ fcsql_validate some_env (fun _ => []) (u "[word = 'a']") (u "2.2") false false = Ok (VBool true) /\
  fcsql_validate some_env (fun _ => []) (u "[word = 'a']") (u "2.2") false true = Ok (VBool false) /\
  fcsql_validate some_env (fun _ => []) (u "[text = 'a']") (u "2.2") false true = Ok (VBool true) /\ fcsql_validate some_env (fun _ => []) (u "[foo = 'a']") (u "2.2") false false = Ok (VBool false).
Proof. vm_compute. repeat split. Qed.
