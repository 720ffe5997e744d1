(** Object graphs: constructors, parent links. *)
From Coq Require Import String.
From Verif Require Import Base Regex LexRules Lexer Grammar Antlr Ast Builder Parser
  SpellSpec BuilderFacts ParseFacts CoverSpec.

Lemma upd_length f : forall h i, List.length (upd h i f) = List.length h.
Proof. induction h as [|x h IH]; intros [|i]; cbn; try reflexivity. rewrite IH. reflexivity. Qed.
Lemma upd_nth f : forall h c i, nth_error (upd h c f) i = if Nat.eqb i c then option_map f (nth_error h i) else nth_error h i.
Proof.
  induction h as [|x h IH]; intros [|c] [|i]; cbn; try reflexivity.
  - destruct (i =? c); reflexivity.
  - apply IH.
Qed.
Definition with_parent (p : nat) (x : hnode) : hnode := mkH (h_payload x) (h_loc x) (h_children x) (Some p).
Definition with_loc (l : option sloc) (x : hnode) : hnode := mkH (h_payload x) l (h_children x) (h_parent x).
Lemma set_parents_length p : forall cs h, List.length (fold_left (set_parent p) cs h) = List.length h.
Proof. induction cs as [|c cs IH]; intros h; cbn; [reflexivity|]. rewrite IH. apply upd_length. Qed.
Lemma set_parents_nth p : forall cs h i,
  nth_error (fold_left (set_parent p) cs h) i = if existsb (Nat.eqb i) cs then option_map (with_parent p) (nth_error h i) else nth_error h i.
Proof.
  induction cs as [|c cs IH]; intros h i; cbn; [reflexivity|]. rewrite IH. unfold set_parent. rewrite upd_nth.
  destruct (Nat.eqb i c); cbn; [|reflexivity]. destruct (nth_error h i) as [x|]; cbn; destruct (existsb (Nat.eqb i) cs); reflexivity.
Qed.

(** What a constructor call does to the heap (C53). *)
Lemma init_node_spec p children child h h' n : init_node p children child h = (h', n) ->
  let cs := children ++ match child with Some c => [c] | None => [] end in
  n = List.length h /\ List.length h' = S (List.length h) /\
  (forall i, i < List.length h -> In i cs -> nth_error h' i = option_map (with_parent n) (nth_error h i)) /\
  (forall i, i < List.length h -> ~ In i cs -> nth_error h' i = nth_error h i) /\
  (~ In n cs -> nth_error h' n = Some (mkH p None cs None)).
Proof.
  unfold init_node. set (cs := children ++ _). intros H. injection H as <- <-.
  assert (Hin : forall i, existsb (Nat.eqb i) cs = true <-> In i cs).
  { intros i. rewrite existsb_exists. split; [intros (x & Hx & He); apply Nat.eqb_eq in He; subst; exact Hx|].
    intros Hi. exists i. split; [exact Hi|apply Nat.eqb_refl]. }
  split; [reflexivity|]. rewrite set_parents_length, app_length. split; [cbn; lia|]. split; [|split].
  - intros i Hi Hc. rewrite set_parents_nth. apply Hin in Hc. rewrite Hc, nth_error_app1 by exact Hi. reflexivity.
  - intros i Hi Hc. rewrite set_parents_nth. destruct (existsb (Nat.eqb i) cs) eqn:He; [apply Hin in He; contradiction|].
    apply nth_error_app1. exact Hi.
  - intros Hc. rewrite set_parents_nth. destruct (existsb (Nat.eqb (List.length h)) cs) eqn:He; [apply Hin in He; contradiction|].
    rewrite nth_error_app2 by lia. rewrite Nat.sub_diag. reflexivity.
Qed.

Definition same_obj (x y : hnode) : Prop := h_payload x = h_payload y /\ h_loc x = h_loc y /\ h_children x = h_children y.
Lemma rep_in h : (forall id n ids, represents h id n ids -> In id ids) /\
  (forall id cs ns ids, rep_children h id cs ns ids -> forall c, In c cs -> In c ids).
Proof.
  apply represents_mutind.
  - intros. left. reflexivity.
  - intros id c [].
  - intros id c x cs n ns ids ids' _ _ _ IH _ IH' c' [<-|Hc]; apply in_or_app; auto.
Qed.
Lemma NoDup_l {A} (l1 l2 : list A) : NoDup (l1 ++ l2) -> NoDup l1.
Proof.
  induction l1 as [|a l1 IH]; intros H; [constructor|]. inversion H as [|? ? Hn Hd]; subst. constructor; [|auto].
  intros Hi. apply Hn. apply in_or_app. auto.
Qed.
Lemma NoDup_r {A} (l1 l2 : list A) : NoDup (l1 ++ l2) -> NoDup l2.
Proof. induction l1 as [|a l1 IH]; intros H; [exact H|]. inversion H; subst. auto. Qed.
Lemma rep_frame h h' :
  (forall id n ids, represents h id n ids -> NoDup ids ->
     (forall i x, In i ids -> nth_error h i = Some x -> exists y, nth_error h' i = Some y /\ same_obj x y /\ (i <> id -> h_parent y = h_parent x)) ->
     represents h' id n ids) /\
  (forall id cs ns ids, rep_children h id cs ns ids -> NoDup ids ->
     (forall i x, In i ids -> nth_error h i = Some x -> exists y, nth_error h' i = Some y /\ same_obj x y /\ h_parent y = h_parent x) ->
     rep_children h' id cs ns ids).
Proof.
  apply represents_mutind.
  - intros id x p l ch ids Hx Hp Hl _ IH Hnd Hf. inversion Hnd as [|? ? Hni Hnd']; subst.
    destruct (Hf id x (or_introl eq_refl) Hx) as (y & Hy & (A & B & D) & _). rewrite A, B.
    econstructor; try eassumption; try reflexivity. rewrite <- D. apply IH; [exact Hnd'|]. intros i z Hi Hz.
    destruct (Hf i z (or_intror Hi) Hz) as (y' & Hy' & Hs & Hpar). exists y'. split; [exact Hy'|]. split; [exact Hs|]. apply Hpar. intros ->. contradiction.
  - constructor.
  - intros id c x cs n ns ids ids' Hx Hp Hr IH _ IH' Hnd Hf. apply NoDup_l in Hnd as Hnd1. apply NoDup_r in Hnd as Hnd2.
    assert (Hc : In c (ids ++ ids')) by (apply in_or_app; left; eapply (proj1 (rep_in h)); exact Hr).
    destruct (Hf c x Hc Hx) as (y & Hy & _ & Hpar).
    econstructor; [exact Hy|rewrite Hpar; exact Hp|apply IH; [exact Hnd1|]|apply IH'; [exact Hnd2|]]; intros i z Hi Hz.
    + destruct (Hf i z (in_or_app _ _ _ (or_introl Hi)) Hz) as (y' & A & B & D). exists y'. auto.
    + apply Hf; [apply in_or_app; right; exact Hi|exact Hz].
Qed.

(** Several separate trees. *)
Inductive roots (h : heap) : list nat -> list qnode -> list nat -> Prop :=
| roots_nil : roots h [] [] []
| roots_cons c x cs n ns ids ids' : nth_error h c = Some x -> h_parent x = None -> represents h c n ids ->
    roots h cs ns ids' -> roots h (c :: cs) (n :: ns) (ids ++ ids').
Lemma roots_in h cs ns ids : roots h cs ns ids -> forall c, In c cs -> In c ids.
Proof.
  induction 1 as [|c x cs n ns ids ids' _ _ Hr _ IH]; intros c' Hc; [destruct Hc|]. apply in_or_app.
  destruct Hc as [<-|Hc]; [left; eapply (proj1 (rep_in h)); exact Hr|right; auto].
Qed.
Lemma roots_adopt h h' p : forall cs ns ids, roots h cs ns ids -> NoDup ids ->
  (forall i x, In i ids -> nth_error h i = Some x -> In i cs -> nth_error h' i = Some (with_parent p x)) ->
  (forall i x, In i ids -> nth_error h i = Some x -> ~ In i cs -> nth_error h' i = Some x) ->
  rep_children h' p cs ns ids.
Proof.
  intros cs ns ids H. induction H as [|c x cs n ns ids ids' Hx Hpar Hr Hrs IH]; intros Hnd Hin Hout; [constructor|].
  assert (Hcid : In c ids) by (eapply (proj1 (rep_in h)); exact Hr).
  assert (Hdisj : forall i, In i ids -> In i ids' -> False).
  { clear -Hnd. induction ids as [|a ids IH]; intros i Hi Hi'; [destruct Hi|]. inversion Hnd as [|? ? Hn Hd]; subst.
    destruct Hi as [->|Hi]; [apply Hn, in_or_app; auto|exact (IH Hd i Hi Hi')]. }
  econstructor.
  - apply (Hin c x); [apply in_or_app; auto|exact Hx|left; reflexivity].
  - reflexivity.
  - apply (proj1 (rep_frame h h') c n ids Hr); [eapply NoDup_l; exact Hnd|]. intros i z Hi Hz.
    destruct (Nat.eq_dec i c) as [->|Hne].
    + exists (with_parent p z). split; [apply Hin; [apply in_or_app; auto|exact Hz|left; reflexivity]|]. split; [repeat split|contradiction].
    + exists z. split; [|split; [repeat split|reflexivity]]. apply Hout; [apply in_or_app; auto|exact Hz|].
      intros [Hx'|Hx']; [congruence|]. apply (Hdisj i Hi). eapply roots_in; eassumption.
  - apply IH; [eapply NoDup_r; exact Hnd| |]; intros i z Hi Hz Hc.
    + apply Hin; [apply in_or_app; auto|exact Hz|right; exact Hc].
    + apply Hout; [apply in_or_app; auto|exact Hz|]. intros [<-|Hx']; [|contradiction]. exact (Hdisj c Hcid Hi).
Qed.

Definition good_alloc (h h' : heap) (ids : list nat) : Prop :=
  List.length h <= List.length h' /\ (forall i, i < List.length h -> nth_error h' i = nth_error h i) /\ NoDup ids /\
  forall i, In i ids -> List.length h <= i < List.length h'.
Lemma roots_frame h h' : (forall i, i < List.length h -> nth_error h' i = nth_error h i) ->
  forall cs ns ids, roots h cs ns ids -> NoDup ids -> roots h' cs ns ids.
Proof.
  intros Hf. assert (Hf' : forall i x, nth_error h i = Some x -> nth_error h' i = Some x).
  { intros i x Hx. rewrite Hf; [exact Hx|]. apply nth_error_Some. congruence. }
  induction 1 as [|c x cs n ns ids ids' Hx Hpar Hr _ IH]; intros Hnd; [constructor|].
  econstructor; [apply Hf'; exact Hx|exact Hpar| |apply IH; eapply NoDup_r; exact Hnd].
  apply (proj1 (rep_frame h h') _ _ _ Hr); [eapply NoDup_l; exact Hnd|]. intros i z _ Hz. exists z. repeat split. apply Hf'. exact Hz.
Qed.

Lemma NoDup_app_intro {A} (l1 l2 : list A) : NoDup l1 -> NoDup l2 -> (forall x, In x l1 -> ~ In x l2) -> NoDup (l1 ++ l2).
Proof.
  induction 1 as [|a l1 Ha _ IH]; intros H2 Hd; [exact H2|]. cbn. constructor.
  - intros Hin. apply in_app_or in Hin. destruct Hin; [contradiction|]. apply (Hd a); [left; reflexivity|assumption].
  - apply IH; [exact H2|]. intros x Hx. apply Hd. right. exact Hx.
Qed.

Lemma alloc_heap b n : forall h h' id, alloc new_obj set_loc_obj b n h = (h', id) ->
  exists ids x, good_alloc h h' ids /\ represents h' id (with_locs b n) ids /\ nth_error h' id = Some x /\ h_parent x = None.
Proof.
  induction n as [p l ch IH] using qnode_ind'. intros h h' id Ha. rewrite alloc_eq in Ha.
  assert (Hl : forall h h1 cs, alloc_list new_obj set_loc_obj b ch h = (h1, cs) ->
    exists ids, good_alloc h h1 ids /\ roots h1 cs (map (with_locs b) ch) ids).
  { clear Ha h h' id. induction IH as [|c ch Hc _ IHch]; intros h h1 cs Hx; cbn [alloc_list] in Hx.
    - injection Hx as <- <-. exists []. split; [|constructor]. split; [lia|]. split; [reflexivity|]. split; [constructor|intros i []].
    - destruct (alloc new_obj set_loc_obj b c h) as [h2 c1] eqn:Hc1. destruct (alloc_list new_obj set_loc_obj b ch h2) as [h3 cs1] eqn:Hcs.
      injection Hx as <- <-. destruct (Hc _ _ _ Hc1) as (ids & x & (A1 & A2 & A3 & A4) & B & D & F).
      destruct (IHch _ _ _ Hcs) as (ids' & (A1' & A2' & A3' & A4') & B'). exists (ids ++ ids'). split.
      + split; [lia|]. split; [intros i Hi; rewrite A2' by lia; apply A2; exact Hi|]. split.
        * apply NoDup_app_intro; try assumption. intros i Hi Hi'. apply A4 in Hi. apply A4' in Hi'. lia.
        * intros i Hi. apply in_app_or in Hi. destruct Hi as [Hi|Hi]; [apply A4 in Hi|apply A4' in Hi]; lia.
      + cbn [map]. apply (roots_cons h3 c1 x cs1 _ _ ids ids').
        * rewrite A2'; [exact D|]. apply nth_error_Some. congruence.
        * exact F.
        * apply (proj1 (rep_frame h2 h3) _ _ _ B A3). intros i z Hi Hz. exists z. split; [rewrite A2'; [exact Hz|apply A4; exact Hi]|]. repeat split.
        * exact B'. }
  unfold alloc1 in Ha. destruct (alloc_list new_obj set_loc_obj b ch h) as [h1 cs] eqn:Hcs.
  destruct (Hl _ _ _ Hcs) as (ids & (A1 & A2 & A3 & A4) & Hr). unfold new_obj in Ha. destruct (init_node p cs None h1) as [h2 n] eqn:Hi.
  apply init_node_spec in Hi. cbv zeta in Hi. rewrite app_nil_r in Hi. destruct Hi as (Hn & Hlen & Hin & Hout & Hnew).
  assert (Hcsb : forall c, In c cs -> c < List.length h1) by (intros c Hc; apply A4; eapply roots_in; eassumption).
  assert (Hnc : ~ In n cs) by (intros Hc; apply Hcsb in Hc; lia). specialize (Hnew Hnc).
  set (h3 := if b then set_loc_h n l h2 else h2).
  assert (Hh3 : h' = h3 /\ id = n) by (unfold h3; destruct b; cbn in Ha; injection Ha as <- <-; auto). destruct Hh3 as [-> ->].
  assert (H3n : nth_error h3 n = Some (mkH p (if b then l else None) cs None)).
  { unfold h3. destruct b; [|exact Hnew]. unfold set_loc_h. rewrite upd_nth, Nat.eqb_refl, Hnew. reflexivity. }
  assert (H3o : forall i, i < n -> nth_error h3 i = nth_error h2 i).
  { intros i Hi. unfold h3. destruct b; [|reflexivity]. unfold set_loc_h. rewrite upd_nth. destruct (Nat.eqb_spec i n); [lia|reflexivity]. }
  assert (H3l : List.length h3 = S n) by (unfold h3; destruct b; unfold set_loc_h; rewrite ?upd_length; lia).
  exists (n :: ids). eexists. split; [|split; [|split; [exact H3n|reflexivity]]].
  - split; [lia|]. split; [|split].
    + intros i Hi. rewrite H3o by lia. rewrite Hout; [apply A2; exact Hi|lia|]. intros Hc.
      apply (roots_in _ _ _ _ Hr) in Hc. apply A4 in Hc. lia.
    + constructor; [|exact A3]. intros Hc. apply A4 in Hc. lia.
    + intros i [<-|Hi]; [lia|]. apply A4 in Hi. lia.
  - replace (with_locs b (QN p l ch)) with (QN p (if b then l else None) (map (with_locs b) ch)).
    2:{ unfold with_locs. destruct b; [rewrite map_id|]; reflexivity. }
    econstructor; [exact H3n|reflexivity|reflexivity|]. cbn [h_children].
    apply (roots_adopt h1 h3 n cs _ ids Hr A3); intros i x Hi Hx Hc; apply A4 in Hi; rewrite H3o by lia.
    + rewrite Hin by (try exact Hc; lia). rewrite Hx. reflexivity.
    + rewrite Hout by (try exact Hc; lia). exact Hx.
Qed.
