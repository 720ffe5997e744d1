(** Property C57: writing trees as queries. *)
From Coq Require Import String Sorted.
From Verif Require Import Base Regex LexRules Lexer Grammar Antlr Ast Builder Parser ModelTests LexSpec LexThms LexWs LitSpec
  GramSpec GramFacts ValueSpec ValueFacts SpellSpec BuilderFacts BuilderRules ParseSpec ParseFacts
  TreeSpec TreeFacts SitFacts LevelSpec QuerySpec ConfigSpec PropsLex PropsParse PropsConfig PropsTree PropsQuery ReadSpec ReadFacts ReadQuery ReadParse ReadTop ReadStrat PropsRead
  WriteSpec WriteFacts WriteTree WriteBack.
Local Open Scope Z_scope.

Lemma erase_subnode m n : subnode m n -> subnode (erase m) (erase n).
Proof. induction 1 as [|p l ch c Hc _ IH]; [constructor|]. cbn [erase]. eapply sub_child; [apply in_map; exact Hc|exact IH]. Qed.
Lemma no_deviation_erase n : no_deviation (erase n) <-> no_deviation n.
Proof.
  split; intros H m c Hm Hc Hch i.
  - rewrite <- erase_shape. apply (H (erase m) (erase c)); [apply erase_subnode; exact Hm|destruct m; exact Hc|rewrite erase_children, Hch; reflexivity].
  - apply subnode_erase in Hm. destruct Hm as (m0 & Hm & ->). rewrite erase_children in Hch.
    destruct (q_children m0) as [|c0 [|]] eqn:He; try discriminate. injection Hch as <-. rewrite erase_shape. apply (H m0 c0); [exact Hm|destruct m0; exact Hc|exact He].
Qed.

(** The written query is accepted and stands for the tree. *)
Lemma write_reads V P n : env_ok V -> writable (e_penv V) (qp_cfg P) n ->
  exists a n', rd_query (e_penv V) (qp_cfg P) (tokens (write (qp_cfg P) n)) a /\ erase a = erase n /\ parse V P (write (qp_cfg P) n) = Ok n'.
Proof.
  intros HV [Hq Hok]. set (C := qp_cfg P) in *. set (E := e_penv V) in *.
  assert (Hn : named n) by (destruct n as [p l ch]; destruct p; exact I || discriminate Hq).
  assert (Hg : Forall (good E) (words C n)) by (apply good_words; [exact Hok|exact Hn]).
  destruct (words_tokens (words C n)) as [Hs Hl]; [eapply Forall_impl; [|exact Hg]; intros w Hw; apply Hw|]. fold (write C n) in Hs, Hl.
  destruct (write_query E C n (eof_token (write C n)) Hok Hq eq_refl _ Hs) as (a & Ha & He). rewrite <- tokens_split in Ha.
  assert (Hr : rd_query E C (tokens (write C n)) a) by (apply qstrat_read; [exact Ha|rewrite <- qstrat_erase, He, qstrat_erase; exact Hq]).
  assert (Hacc : exists n', parse V P (write C n) = Ok n').
  { apply (C56_accepted V P (write C n) HV). split; [exact Hl|]. split; [exists a; exact Hr|].
    intros t Ht Hty. rewrite tokens_split in Ht. apply in_app_or in Ht. destruct Ht as [Ht|[<-|[]]]; [|discriminate Hty].
    destruct Hs as [Hs1 Hs2]. rewrite Forall_forall in Hs2, Hg. specialize (Hs2 t Ht). unfold typed in Hs2. rewrite Hty in Hs2. apply (Hg (t_text t)); [|exact Hs2]. rewrite <- Hs1. apply in_map. exact Ht. }
  destruct Hacc as (n' & Hp). exists a, n'. auto.
Qed.

(** C57.  The query written from a writable tree is accepted; and it is read back as that tree
    exactly if no level of the tree is a deviating one. *)
Theorem C57_accepted : forall V P n, env_ok V -> writable (e_penv V) (qp_cfg P) n -> exists n', parse V P (write (qp_cfg P) n) = Ok n'.
Proof. intros V P n HV Hw. destruct (write_reads V P n HV Hw) as (a & n' & _ & _ & H). eauto. Qed.
Theorem C57_roundtrip : forall V P n, env_ok V -> writable (e_penv V) (qp_cfg P) n ->
  ((exists n', parse V P (write (qp_cfg P) n) = Ok n' /\ erase n' = erase n) <-> no_deviation n).
Proof.
  intros V P n HV Hw. destruct (write_reads V P n HV Hw) as (a & n' & Ha & He & Hp). pose proof (C56_exact V P _ n' a HV Hp Ha) as Hx.
  assert (Hd : no_deviation a <-> no_deviation n) by (rewrite <- (no_deviation_erase a), He, no_deviation_erase; reflexivity).
  rewrite <- Hd, <- Hx. split.
  - intros (n2 & Hp2 & He2). assert (n2 = n') by congruence. subst n2. 
    assert (Hq : qstrat n' = true) by (rewrite <- qstrat_erase, He2, qstrat_erase; apply Hw).
    destruct (proj2 (C56_check V P _ n' HV Hp) Hq) as (b & Hb & ->). rewrite (C56_unique _ _ _ _ _ Hb Ha). reflexivity.
  - intros ->. exists (if enableSourceLocations (qp_cfg P) then a else erase a). split; [exact Hp|]. rewrite <- He. apply (with_locs_twice (enableSourceLocations (qp_cfg P)) a).
Qed.

(** Writability does not depend on source locations. *)
Lemma named_erase c : named (erase c) <-> named c.
Proof. destruct c as [p l ch]. destruct p; reflexivity. Qed.
Lemma bare_erase C c : bare C (erase c) = bare C c.
Proof. destruct c as [p l ch]. destruct p; reflexivity. Qed.
Lemma node_ok_erase E C m : node_ok E C (erase m) <-> node_ok E C m.
Proof.
  destruct m as [p l ch]. cbn [erase node_ok]. rewrite map_length.
  assert (H : (forall c, In c (map erase ch) -> named c \/ class_of p = CQuerySegment /\ bare C c = true) <-> (forall c, In c ch -> named c \/ class_of p = CQuerySegment /\ bare C c = true)).
  { split; intros H c Hc.
    - specialize (H (erase c) (in_map _ _ _ Hc)). rewrite named_erase, bare_erase in H. exact H.
    - apply in_map_iff in Hc. destruct Hc as (c0 & <- & Hc). rewrite named_erase, bare_erase. apply H. exact Hc. }
  rewrite H. reflexivity.
Qed.
Lemma writable_erase E C n : writable E C (erase n) <-> writable E C n.
Proof.
  unfold writable. rewrite qstrat_erase. split; intros [Hq H]; (split; [exact Hq|]); intros m Hm.
  - apply node_ok_erase. apply H. apply erase_subnode. exact Hm.
  - apply subnode_erase in Hm. destruct Hm as (m0 & Hm & ->). apply node_ok_erase. apply H. exact Hm.
Qed.

(** Normalisation yields texts and is idempotent (Unicode normal forms do and are). *)
Definition norm_idempotent (E : penv) (C : pcfg) : Prop :=
  forall v, is_pystr v -> is_pystr (normalised E C v) /\ normalised E C (normalised E C v) = normalised E C v.

(** Every documented result can be written, so the writable trees without deviating level are all the documented results. *)
Theorem C57_writable : forall V P q n, env_ok V -> norm_idempotent (e_penv V) (qp_cfg P) -> parse V P q = Ok n -> qstrat n = true ->
  writable (e_penv V) (qp_cfg P) n /\ no_deviation n.
Proof.
  intros V P q n HV Hn Hp Hq. destruct (proj2 (C56_check V P q n HV Hp) Hq) as (a & Ha & Hna).
  assert (He : erase n = erase a) by (rewrite Hna; apply (with_locs_twice (enableSourceLocations (qp_cfg P)) a)).
  split.
  - apply writable_erase. rewrite He. apply writable_erase. rewrite tokens_split in Ha. eapply query_back; [exact Hn|exact Ha|].
    destruct (proj1 (C56_accepted V P q HV) (ex_intro _ n Hp)) as (_ & _ & Hi). apply Forall_forall. intros t Ht. split.
    + destruct (token_at q t Ht) as (b & af & _ & _ & _ & _ & _ & _ & Hl). destruct Hl as (_ & _ & Hf & _). exact Hf.
    + apply Hi. rewrite tokens_split. apply in_or_app. left. exact Ht.
  - apply no_deviation_erase. rewrite He. apply no_deviation_erase. apply (C56_exact V P q n a HV Hp Ha). exact Hna.
Qed.
Theorem C57_range : forall V P n, env_ok V -> norm_idempotent (e_penv V) (qp_cfg P) ->
  (qstrat n = true /\ (exists q n', parse V P q = Ok n' /\ erase n' = erase n) <-> writable (e_penv V) (qp_cfg P) n /\ no_deviation n).
Proof.
  intros V P n HV Hn. split.
  - intros (Hq & q & n' & Hp & He). assert (Hq' : qstrat n' = true) by (rewrite <- qstrat_erase, He, qstrat_erase; exact Hq).
    destruct (C57_writable V P q n' HV Hn Hp Hq') as [Hw Hd]. rewrite <- writable_erase, <- He, writable_erase, <- no_deviation_erase, <- He, no_deviation_erase. auto.
  - intros [Hw Hd]. split; [apply Hw|]. exists (write (qp_cfg P) n). apply (proj2 (C57_roundtrip V P n HV Hw)). exact Hd.
Qed.

(** Different trees are written differently. *)
Theorem C57_distinct : forall E C m n, writable E C m -> writable E C n -> write C m = write C n -> erase m = erase n.
Proof.
  intros E C m n Hm Hn Heq.
  set (V := mkEnv E (e_calls some_env)). set (P := new_parser C).
  assert (HV : env_ok V) by exact some_env_ok.
  destruct (write_reads V P m HV Hm) as (a & m' & Ha & Hea & _). destruct (write_reads V P n HV Hn) as (b & n' & Hb & Heb & _).
  change (qp_cfg P) with C in *. rewrite Heq in Ha. rewrite <- Hea, <- Heb. rewrite (C56_unique _ _ _ _ _ Ha Hb). reflexivity.
Qed.

(** The sample tree is writable; what is written, and what is read back.  The C18 counterexample
    has a writable documented reading that is not read back. *)
Lemma some_norm P : norm_idempotent (e_penv some_env) (qp_cfg P).
Proof. intros v Hv. assert (H : normalised (e_penv some_env) (qp_cfg P) v = v) by (unfold normalised; destruct (unicode_normalization_form (qp_cfg P)); reflexivity). rewrite !H. auto. Qed.
Definition rewritten (q : pystr) : option pystr :=
  match parse some_env default_parser q with Ok n => Some (write (qp_cfg default_parser) n) | _ => None end.
Lemma sample_rewritten : rewritten (u "([word='a' & !(pos:x!=""b""/i|c='d'/l)] 'e\n'{,3} | []{2}) 'f'* within s") =
  Some (u "( [ word = ""a"" & ! ( pos : x != ""b"" / i | c = ""d"" / l ) ] ""e" ++ [10%N] ++ u """ { 0 , 3 } | [ ] { 2 , 2 } ) ""f"" * within sentence").
Proof. vm_compute. reflexivity. Qed.
Example C57_witness : exists n, documented_result sample_query = Some true /\ parse some_env default_parser sample_query = Ok n /\
  writable (e_penv some_env) (qp_cfg default_parser) n /\ no_deviation n /\
  exists n', parse some_env default_parser (write (qp_cfg default_parser) n) = Ok n' /\ erase n' = erase n.
Proof.
  destruct (documented_parsed _ _ sample_documented) as (n & Hp & Hq). destruct (C57_writable _ _ _ _ some_env_ok (some_norm _) Hp Hq) as [Hw Hd].
  exists n. split; [exact sample_documented|]. split; [exact Hp|]. split; [exact Hw|]. split; [exact Hd|]. apply (C57_roundtrip _ _ _ some_env_ok Hw). exact Hd.
Qed.
Example C57_witness_deviating : exists a, writable (e_penv some_env) (qp_cfg default_parser) a /\ ~ no_deviation a /\
  rd_query (e_penv some_env) (qp_cfg default_parser) (tokens deviating_query) a /\
  ~ exists n', parse some_env default_parser (write (qp_cfg default_parser) a) = Ok n' /\ erase n' = erase a.
Proof.
  destruct C56_witness_deviating as (n & a & Hp & Ha & Hd & _). exists a. assert (Hw : writable (e_penv some_env) (qp_cfg default_parser) a).
  { pose proof Ha as Hb. rewrite tokens_split in Hb. eapply query_back; [exact (some_norm default_parser)|exact Hb|].
    destruct (proj1 (C56_accepted _ _ deviating_query some_env_ok) (ex_intro _ n Hp)) as (_ & _ & Hi). apply Forall_forall. intros t Ht. split.
    + destruct (token_at _ t Ht) as (b & af & _ & _ & _ & _ & _ & _ & Hl). destruct Hl as (_ & _ & Hf & _). exact Hf.
    + apply Hi. rewrite tokens_split. apply in_or_app. left. exact Ht. }
  split; [exact Hw|]. split; [exact Hd|]. split; [exact Ha|]. intros H. apply Hd. apply (C57_roundtrip _ _ _ some_env_ok Hw). exact H.
Qed.
