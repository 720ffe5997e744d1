(** The shared tables never lie: proofs. *)
From Verif Require Import Base Cache.
Local Open Scope nat_scope.

Lemma nth_put {A} (a : A) l i j : i < length l -> nth_error (firstn i l ++ a :: skipn (S i) l) j = if Nat.eq_dec j i then Some a else nth_error l j.
Proof.
  intros Hi. destruct (Nat.eq_dec j i) as [Hj|Hj].
  - subst j. rewrite nth_error_app2; rewrite firstn_length_le by lia; [|lia]. rewrite Nat.sub_diag. reflexivity.
  - destruct (Nat.lt_ge_cases j i) as [H|H].
    + rewrite nth_error_app1 by (rewrite firstn_length_le; lia). rewrite <- (firstn_skipn i l) at 2. rewrite nth_error_app1 by (rewrite firstn_length_le; lia). reflexivity.
    + rewrite nth_error_app2 by (rewrite firstn_length_le; lia). rewrite firstn_length_le by lia. replace (j - i) with (S (j - S i)) by lia. cbn [nth_error].
      rewrite <- (firstn_skipn (S i) l) at 2. rewrite nth_error_app2 by (rewrite firstn_length_le; lia). rewrite firstn_length_le by lia. reflexivity.
Qed.
Lemma put_length {A} (a : A) l i : i < length l -> length (firstn i l ++ a :: skipn (S i) l) = length l.
Proof. intros Hi. rewrite app_length. cbn [length]. rewrite firstn_length_le, skipn_length; lia. Qed.

Section Shared.
  Variables (St Sy Dn R : Type).
  Variable St_dec : forall a b : St, {a = b} + {a <> b}.
  Variable Sy_dec : forall a b : Sy, {a = b} + {a <> b}.
  Variable Dn_dec : forall a b : Dn, {a = b} + {a <> b}.
  Variable start : Dn -> St.
  Variable step : St -> Sy -> option St.
  Variable stop : St -> bool.
  Variable keeps : Sy -> bool.
  Notation dfa := (dfa St Sy). Notation sim := (sim St Sy). Notation content := (content St Sy). Notation walk := (walk St Sy step stop).
  Notation sstep := (sstep St Sy Dn St_dec Sy_dec start step stop keeps). Notation prog := (prog St Sy Dn R). Notation thread := (thread St Sy Dn R).
  Notation tstep := (tstep St Sy Dn R St_dec Sy_dec Dn_dec start step stop keeps). Notation happen := (happen St Sy Dn R St_dec Sy_dec Dn_dec start step stop keeps).
  Notation history := (history St Sy Dn R St_dec Sy_dec Dn_dec start step stop keeps). Notation eval := (eval St Sy Dn R start step stop).

  Implicit Types m : dfa.
  (** ** What is stored is right *)
  Definition edge_ok (m : dfa) (s : St) (t : Sy) (g : target) : Prop :=
    match g with TErr => step s t = None | TSt j => exists s', step s t = Some s' /\ content m j = Some s' end.
  Definition valid (d : Dn) (m : dfa) : Prop :=
    (forall i, d_s0 _ _ m = Some i -> content m i = Some (start d)) /\
    (forall i c l t g, nth_error (d_heap _ _ m) i = Some c -> c_edges _ _ c = Some l -> In (t, g) l -> edge_ok m (c_content _ _ c) t g).
  Lemma valid_empty d : valid d (empty_dfa St Sy).
  Proof. split; [discriminate|]. intros [|i] c l t g H; discriminate H. Qed.
  (** Contents stay; edges stay once they are there. *)
  Definition ext (m m' : dfa) : Prop :=
    (forall i s, content m i = Some s -> content m' i = Some s) /\
    (forall i c, nth_error (d_heap _ _ m) i = Some c -> c_edges _ _ c <> None -> exists c', nth_error (d_heap _ _ m') i = Some c' /\ c_edges _ _ c' <> None).
  Lemma ext_refl m : ext m m.
  Proof. split; [auto|]. intros i c H1 H2. exists c. auto. Qed.
  Lemma edge_ext m m' s t g : ext m m' -> edge_ok m s t g -> edge_ok m' s t g.
  Proof. intros [H _]. destruct g as [|j]; [auto|]. intros (s' & A & B). exists s'. auto. Qed.
  Lemma content_cell m i s : content m i = Some s -> exists c, nth_error (d_heap _ _ m) i = Some c /\ c_content _ _ c = s.
  Proof. unfold Cache.content. destruct (nth_error (d_heap _ _ m) i) as [c|]; [|discriminate]. intros H. injection H as <-. exists c. auto. Qed.
  Lemma cell_content m i c : nth_error (d_heap _ _ m) i = Some c -> content m i = Some (c_content _ _ c).
  Proof. intros H. unfold Cache.content. rewrite H. reflexivity. Qed.
  (** The two kinds of writing. *)
  Lemma ext_put m s l : ext m (mkDfa _ _ (d_heap _ _ m ++ [mkCell _ _ s None]) l (d_s0 _ _ m)).
  Proof.
    assert (N : forall i c, nth_error (d_heap _ _ m) i = Some c -> nth_error (d_heap _ _ m ++ [mkCell _ _ s None]) i = Some c).
    { intros i c H. rewrite nth_error_app1; [exact H|]. apply nth_error_Some. congruence. }
    split; [intros i s' H; apply content_cell in H; destruct H as (c & H & <-); apply cell_content, N, H|]. intros i c H1 H2. exists c. auto.
  Qed.
  Lemma valid_put d m s l : valid d m -> valid d (mkDfa _ _ (d_heap _ _ m ++ [mkCell _ _ s None]) l (d_s0 _ _ m)).
  Proof.
    intros [V1 V2]. pose proof (ext_put m s l) as HE. split; [intros i Hi; apply (proj1 HE); exact (V1 i Hi)|].
    cbn [d_heap]. intros i c el t g Hc Hl Hin. destruct (Nat.lt_ge_cases i (length (d_heap _ _ m))) as [H|H].
    - rewrite nth_error_app1 in Hc by exact H. apply (edge_ext m); [exact HE|]. exact (V2 i c el t g Hc Hl Hin).
    - rewrite nth_error_app2 in Hc by exact H. destruct (i - length (d_heap _ _ m)) as [|n]; [|destruct n; discriminate Hc]. injection Hc as <-. discriminate Hl.
  Qed.
  Lemma content_put m s l : content (mkDfa _ _ (d_heap _ _ m ++ [mkCell _ _ s None]) l (d_s0 _ _ m)) (length (d_heap _ _ m)) = Some s.
  Proof. unfold Cache.content. cbn [d_heap]. rewrite nth_error_app2, Nat.sub_diag by lia. reflexivity. Qed.
  Lemma set_nth m i c l j : nth_error (d_heap _ _ m) i = Some c ->
    nth_error (d_heap _ _ (set_edges _ _ m i l)) j = if Nat.eq_dec j i then Some (mkCell _ _ (c_content _ _ c) (Some l)) else nth_error (d_heap _ _ m) j.
  Proof. intros H. unfold set_edges. rewrite H. cbn [d_heap]. apply nth_put. apply nth_error_Some. congruence. Qed.
  Lemma ext_set m i l : ext m (set_edges _ _ m i l).
  Proof.
    destruct (nth_error (d_heap _ _ m) i) as [c|] eqn:Hc; [|unfold set_edges; rewrite Hc; apply ext_refl]. split.
    - intros j s H. apply content_cell in H. destruct H as (c' & H & <-). unfold Cache.content. rewrite (set_nth m i c l j Hc). destruct (Nat.eq_dec j i) as [E|E]; [|rewrite H; reflexivity]. subst j. rewrite Hc in H. injection H as <-. reflexivity.
    - intros j c' H Hn. rewrite (set_nth m i c l j Hc). destruct (Nat.eq_dec j i) as [E|E]; [eexists; split; [reflexivity|discriminate]|]. exists c'. auto.
  Qed.
  Lemma valid_set d m i c l : valid d m -> nth_error (d_heap _ _ m) i = Some c -> (forall t g, In (t, g) l -> edge_ok m (c_content _ _ c) t g) -> valid d (set_edges _ _ m i l).
  Proof.
    intros [V1 V2] Hc Hl. pose proof (ext_set m i l) as HE. split.
    - intros j Hj. apply (proj1 HE). apply V1. unfold set_edges in Hj. rewrite Hc in Hj. exact Hj.
    - intros j c' el t g Hc' Hel Hin. rewrite (set_nth m i c l j Hc) in Hc'. apply (edge_ext m); [exact HE|]. destruct (Nat.eq_dec j i) as [E|E].
      + injection Hc' as <-. cbn in Hel |- *. injection Hel as <-. auto.
      + exact (V2 j c' el t g Hc' Hel Hin).
  Qed.

  (** ** A simulation is on its way to the right answer *)
  Definition leads (p : list St) (a b : list St * ending) : Prop := b = (rev p ++ fst a, snd a).
  Definition on_way (d : Dn) (w0 : list Sy) (path : list St) (rest : list Sy) (s : St) : Prop :=
    exists p, path = s :: p /\ leads p (walk s rest) (walk (start d) w0).
  Definition sok (d : Dn) (w0 : list Sy) (m : dfa) (x : sim) : Prop :=
    let path := m_path _ _ x in let rest := m_rest _ _ x in
    let at_ := fun i t => exists s r, content m i = Some s /\ rest = t :: r /\ on_way d w0 path rest s in
    match m_pc _ _ x with
    | Begin _ _ => path = [] /\ rest = w0
    | Get _ _ s (GStart _) | Put _ _ s (GStart _) => path = [] /\ rest = w0 /\ s = start d
    | Get _ _ s' (GEdge _ i t) | Put _ _ s' (GEdge _ i t) => exists s r, content m i = Some s /\ rest = t :: r /\ on_way d w0 path rest s /\ step s t = Some s'
    | Set0 _ _ i => path = [] /\ rest = w0 /\ content m i = Some (start d)
    | Look _ _ i => exists s, content m i = Some s /\ on_way d w0 path rest s
    | Compute _ _ i t => at_ i t
    | Check _ _ i t g | Make _ _ i t g => exists s r, content m i = Some s /\ rest = t :: r /\ on_way d w0 path rest s /\ edge_ok m s t g
    | Store _ _ i t g => exists s r, content m i = Some s /\ rest = t :: r /\ on_way d w0 path rest s /\ edge_ok m s t g /\
        exists c, nth_error (d_heap _ _ m) i = Some c /\ c_edges _ _ c <> None
    | Enter _ _ g => exists s t r, rest = t :: r /\ on_way d w0 path rest s /\ edge_ok m s t g
    end.
  Lemma sok_ext d w0 m m' x : ext m m' -> sok d w0 m x -> sok d w0 m' x.
  Proof.
    intros HE. pose proof HE as [E1 E2]. unfold sok. destruct (m_pc _ _ x) as [|s [|i t]|s [|i t]|i|i|i t|i t g|i t g|i t g|g]; auto.
    - intros (s0 & r & A & B & C & D). exists s0, r. auto.
    - intros (s0 & r & A & B & C & D). exists s0, r. auto.
    - intros (A & B & C). auto.
    - intros (s0 & A & B). exists s0. auto.
    - intros (s0 & r & A & B & C). exists s0, r. auto.
    - intros (s0 & r & A & B & C & D). exists s0, r. split; [auto|]. split; [exact B|]. split; [exact C|]. exact (edge_ext m m' _ _ _ HE D).
    - intros (s0 & r & A & B & C & D). exists s0, r. split; [auto|]. split; [exact B|]. split; [exact C|]. exact (edge_ext m m' _ _ _ HE D).
    - intros (s0 & r & A & B & C & D & c & F & G). exists s0, r. split; [auto|]. split; [exact B|]. split; [exact C|]. split; [exact (edge_ext m m' _ _ _ HE D)|]. exact (E2 i c F G).
    - intros (s0 & t & r & A & B & D). exists s0, t, r. split; [exact A|]. split; [exact B|]. exact (edge_ext m m' _ _ _ HE D).
  Qed.
  (** How many steps a simulation still needs at most. *)
  Definition left_ (x : sim) : nat :=
    let n := 8 * length (m_rest _ _ x) in
    match m_pc _ _ x with
    | Begin _ _ => n + 5 | Get _ _ _ (GStart _) => n + 4 | Put _ _ _ (GStart _) => n + 3 | Set0 _ _ _ => n + 2 | Look _ _ _ => n + 1
    | Compute _ _ _ _ => n | Get _ _ _ (GEdge _ _ _) => n - 1 | Put _ _ _ (GEdge _ _ _) => n - 2 | Check _ _ _ _ _ => n - 3 | Make _ _ _ _ _ => n - 4 | Store _ _ _ _ _ => n - 5 | Enter _ _ _ => n - 6
    end.
  Definition answers_right (d : Dn) (w0 : list Sy) (m : dfa) (x : sim) (a : after St Sy) : Prop :=
    match a with Goes _ _ x' => sok d w0 m x' /\ left_ x' < left_ x | Answers _ _ a => a = walk (start d) w0 /\ 0 < left_ x | Breaks _ _ => False end.
  Lemma edge_in m i t g : edge _ _ Sy_dec m i t = Some g -> exists c l, nth_error (d_heap _ _ m) i = Some c /\ c_edges _ _ c = Some l /\ In (t, g) l.
  Proof.
    unfold edge. destruct (nth_error (d_heap _ _ m) i) as [c|]; [|discriminate]. destruct (c_edges _ _ c) as [l|] eqn:El; [|discriminate]. intros H. exists c, l. split; [reflexivity|]. split; [exact El|].
    destruct (find _ l) as [[t' g']|] eqn:Ef; [|discriminate H]. apply find_some in Ef. destruct Ef as [Hin Ht]. cbn in H, Ht. injection H as ->. destruct (Sy_dec t' t) as [->|]; [exact Hin|discriminate Ht].
  Qed.
  Lemma leads_start d w0 : on_way d w0 [start d] w0 (start d).
  Proof. exists []. split; [reflexivity|]. unfold leads. cbn [rev app]. destruct (walk (start d) w0). reflexivity. Qed.
  Lemma sstep_ok d w0 m x m' a : valid d m -> sok d w0 m x -> sstep d m x = (m', a) -> valid d m' /\ ext m m' /\ answers_right d w0 m' x a.
  Proof.
    intros HV. destruct x as [path rest p]. unfold sok, Cache.sstep. cbn [m_path m_rest m_pc]. destruct p as [|s g|s g|i|i|i t|i t g|i t g|i t g|g].
    - intros [-> ->] H. injection H as <- <-. split; [exact HV|]. split; [apply ext_refl|]. destruct (d_s0 _ _ m) as [i|] eqn:E0.
      + pose proof (proj1 HV i E0) as Hc. unfold arrive. rewrite Hc. cbn [answers_right sok m_path m_rest m_pc left_]. split; [|lia]. exists (start d). split; [exact Hc|apply leads_start].
      + cbn [answers_right sok m_path m_rest m_pc left_]. split; [auto|lia].
    - intros Hs H. injection H as <- <-. split; [exact HV|]. split; [apply ext_refl|].
      destruct (find _ (d_states _ _ m)) as [i|] eqn:Ef.
      + apply find_some in Ef. destruct Ef as [_ Ef]. destruct (content m i) as [s'|] eqn:Hc; [|discriminate Ef]. destruct (St_dec s' s) as [->|]; [|discriminate Ef].
        destruct g as [|j t]; cbn [have answers_right sok m_path m_rest m_pc left_].
        * destruct Hs as (-> & -> & ->). split; [auto|lia].
        * destruct Hs as (s0 & r & A & -> & B & D). cbn [length]. split; [|lia]. exists s0, r. split; [exact A|]. split; [reflexivity|]. split; [exact B|]. exists s. auto.
      + destruct g as [|j t]; cbn [answers_right sok m_path m_rest m_pc left_]; [split; [exact Hs|lia]|]. split; [exact Hs|]. destruct Hs as (s0 & r & A & -> & B & D). cbn [length]. lia.
    - intros Hs H. injection H as <- <-. pose proof (valid_put d m s (length (d_heap _ _ m) :: d_states _ _ m) HV) as HV'. pose proof (ext_put m s (length (d_heap _ _ m) :: d_states _ _ m)) as HE. pose proof (content_put m s (length (d_heap _ _ m) :: d_states _ _ m)) as HC.
      split; [exact HV'|]. split; [exact HE|]. destruct g as [|j t]; cbn [have answers_right sok m_path m_rest m_pc left_].
      + destruct Hs as (-> & -> & ->). split; [auto|lia].
      + destruct Hs as (s0 & r & A & -> & B & D). cbn [length]. split; [|lia]. exists s0, r. split; [exact (proj1 HE _ _ A)|]. split; [reflexivity|]. split; [exact B|]. exists s. auto.
    - intros (-> & -> & Hc) H. injection H as <- <-. assert (HE : ext m (mkDfa _ _ (d_heap _ _ m) (d_states _ _ m) (Some i))) by (split; [auto|intros j c H1 H2; exists c; auto]).
      split; [|split; [exact HE|]].
      + split; [intros j Hj; cbn in Hj; injection Hj as <-; exact Hc|exact (proj2 HV)].
      + unfold arrive. rewrite Hc. cbn [answers_right sok m_path m_rest m_pc left_]. split; [|lia]. exists (start d). split; [exact Hc|apply leads_start].
    - intros (s & Hc & Ho) H. injection H as <- <-. split; [exact HV|]. split; [apply ext_refl|]. destruct rest as [|t r].
      + destruct Ho as (q & -> & Hl). cbn [answers_right left_ m_rest m_pc length]. split; [|lia]. rewrite Hl. reflexivity.
      + destruct (if keeps t then edge _ _ Sy_dec m i t else None) as [g|] eqn:Ee; cbn [answers_right sok m_path m_rest m_pc left_ length].
        * destruct (keeps t); [|discriminate Ee]. apply edge_in in Ee. destruct Ee as (c & l & A & B & D). split; [|lia]. exists s, t, r. split; [reflexivity|]. split; [exact Ho|].
          pose proof (proj2 HV i c l t g A B D) as HO. apply cell_content in A. rewrite Hc in A. injection A as ->. exact HO.
        * split; [|lia]. exists s, r. auto.
    - intros (s & r & Hc & -> & Ho) H. injection H as <- <-. split; [exact HV|]. split; [apply ext_refl|]. rewrite Hc. destruct (step s t) as [s'|] eqn:Es; cbn [answers_right sok m_path m_rest m_pc left_ length]; (split; [|lia]).
      + exists s, r. auto.
      + exists s, r. auto.
    - intros (s & r & Hc & -> & Ho & He) H. injection H as <- <-. split; [exact HV|]. split; [apply ext_refl|]. destruct (content_cell m i s Hc) as (c & Hi & <-). rewrite Hi. destruct (keeps t).
      + destruct (c_edges _ _ c) as [l|] eqn:El; cbn [answers_right sok m_path m_rest m_pc left_ length]; (split; [|lia]).
        * exists (c_content _ _ c), r. repeat split; auto. exists c. split; [exact Hi|congruence].
        * exists (c_content _ _ c), r. auto.
      + cbn [answers_right sok m_path m_rest m_pc left_ length]. split; [|lia]. exists (c_content _ _ c), t, r. auto.
    - intros (s & r & Hc & -> & Ho & He) H. injection H as <- <-. destruct (content_cell m i s Hc) as (c & Hi & Hs). pose proof (ext_set m i []) as HE. split; [|split; [exact HE|]].
      + apply (valid_set d m i c []); [exact HV|exact Hi|]. intros t' g' [].
      + cbn [answers_right sok m_path m_rest m_pc left_ length]. split; [|lia]. exists s, r. split; [exact (proj1 HE _ _ Hc)|]. split; [reflexivity|]. split; [exact Ho|]. split; [exact (edge_ext _ _ _ _ _ HE He)|].
        rewrite (set_nth m i c [] i Hi). destruct (Nat.eq_dec i i) as [_|N]; [|congruence]. eexists. split; [reflexivity|]. discriminate.
    - intros (s & r & Hc & -> & Ho & He & c & Hi & Hn) H. rewrite Hi in H. destruct (c_edges _ _ c) as [l|] eqn:El; [|congruence]. injection H as <- <-. pose proof (ext_set m i ((t, g) :: l)) as HE.
      assert (Hs : c_content _ _ c = s) by (apply cell_content in Hi; rewrite Hc in Hi; injection Hi as <-; reflexivity).
      split; [|split; [exact HE|]].
      + apply (valid_set d m i c); [exact HV|exact Hi|]. intros t' g' [E|Hin]; [injection E as <- <-; rewrite Hs; exact He|]. exact (proj2 HV i c l t' g' Hi El Hin).
      + cbn [answers_right sok m_path m_rest m_pc left_ length]. split; [|lia]. exists s, t, r. split; [reflexivity|]. split; [exact Ho|]. exact (edge_ext _ _ _ _ _ HE He).
    - intros (s & t & r & -> & (q & -> & Hl) & He) H. destruct g as [|j].
      + injection H as <- <-. split; [exact HV|]. split; [apply ext_refl|]. cbn [answers_right left_ m_rest m_pc length]. split; [|lia]. rewrite Hl. cbn [Cache.walk]. cbn in He. rewrite He. reflexivity.
      + destruct He as (s' & Hs & Hc). rewrite Hc in H. injection H as <- <-. split; [exact HV|]. split; [apply ext_refl|]. cbn [Cache.walk] in Hl. rewrite Hs in Hl. destruct (stop s') eqn:Et.
        * cbn [answers_right left_ m_rest m_pc length]. split; [|lia]. rewrite Hl. cbn [rev fst snd]. rewrite <- !app_assoc. reflexivity.
        * cbn [answers_right sok m_path m_rest m_pc left_ length]. split; [|lia]. exists s'. split; [exact Hc|]. exists (s :: q). split; [reflexivity|]. unfold leads. rewrite Hl. cbn [rev fst snd]. rewrite <- app_assoc. reflexivity.
  Qed.

  (** ** Threads *)
  Fixpoint cost (p : prog) : nat := match p with Ret _ _ _ _ _ => 1 | Ask _ _ _ _ d w k => S (8 * length w + 5 + cost (k (walk (start d) w))) end.
  (** Thread [t], which was started with [p0], and the steps it still needs. *)
  Definition tok (dfas : Dn -> dfa) (p0 : prog) (t : thread) (n : nat) : Prop :=
    match t with
    | Running _ _ _ _ p => eval p = eval p0 /\ cost p <= n
    | Walking _ _ _ _ d x k => exists w, sok d w (dfas d) x /\ eval (k (walk (start d) w)) = eval p0 /\ left_ x + cost (k (walk (start d) w)) <= n
    | Finished _ _ _ _ r => r = eval p0
    | Killed _ _ _ _ => True
    | Broken _ _ _ _ => False
    end.
  Definition exts (m m' : Dn -> dfa) : Prop := forall d, ext (m d) (m' d).
  Lemma tok_ext (m m' : Dn -> dfa) p0 t n : exts m m' -> tok m p0 t n -> tok m' p0 t n.
  Proof. intros HE. destruct t; cbn [tok]; auto. intros (w & A & B). exists w. split; [exact (sok_ext _ _ _ _ _ (HE d) A)|exact B]. Qed.
  Lemma tok_more (m : Dn -> dfa) p0 t n n' : n <= n' -> tok m p0 t n -> tok m p0 t n'.
  Proof. intros Hn. destruct t; cbn [tok]; auto; [intros [A B]; split; [exact A|lia]|]. intros (w & A & B & C). exists w. split; [exact A|]. split; [exact B|lia]. Qed.
  Lemma tstep_ok (m : Dn -> dfa) p0 t n (m' : Dn -> dfa) t' : (forall d, valid d (m d)) -> tok m p0 t n -> tstep m t = (m', t') -> (forall d, valid d (m' d)) /\ exts m m' /\ tok m' p0 t' (n - 1).
  Proof.
    intros HV. destruct t as [[r|d w k]|d x k|r| |]; cbn [tok Cache.tstep].
    - intros [A B] H. injection H as <- <-. split; [exact HV|]. split; [intros d; apply ext_refl|]. exact A.
    - intros [A B] H. injection H as <- <-. split; [exact HV|]. split; [intros e; apply ext_refl|]. cbn [tok]. exists w. cbn [cost] in B. split; [cbn; auto|]. split; [exact A|]. cbn [left_ m_rest m_pc]. lia.
    - intros (w & A & B & C) H. destruct (sstep d (m d) x) as [m1 a] eqn:Es. injection H as <- <-. destruct (sstep_ok d w (m d) x m1 a (HV d) A Es) as (V1 & E1 & R1). split; [|split].
      + intros e. destruct (Dn_dec e d) as [->|]; [exact V1|apply HV].
      + intros e. destruct (Dn_dec e d) as [->|]; [exact E1|apply ext_refl].
      + destruct a as [x'|a|]; cbn [answers_right] in R1.
        * destruct R1 as [R1 R2]. cbn [tok]. exists w. destruct (Dn_dec d d) as [_|N]; [|congruence]. split; [exact R1|]. split; [exact B|lia].
        * destruct R1 as [-> R2]. cbn [tok]. split; [exact B|lia].
        * destruct R1.
    - intros A H. injection H as <- <-. split; [exact HV|]. split; [intros d; apply ext_refl|]. exact A.
    - intros A H. injection H as <- <-. split; [exact HV|]. split; [intros d; apply ext_refl|]. exact I.
    - intros [].
  Qed.
  (** The programs started, and the steps granted to thread [i] since it was started. *)
  Definition started (l : list (event St Sy Dn R)) : list prog := flat_map (fun e => match e with EStart _ _ _ _ p => [p] | _ => [] end) l.
  Definition is_step (i : nat) (e : event St Sy Dn R) : bool := match e with EStep _ _ _ _ j => Nat.eqb i j | _ => false end.
  Fixpoint granted (i n : nat) (l : list (event St Sy Dn R)) : nat :=
    match l with
    | [] => 0
    | EStart _ _ _ _ _ :: r => granted i (S n) r
    | e :: r => (if (i <? n) && is_step i e then 1 else 0) + granted i n r
    end.
  Definition wok (l : list (event St Sy Dn R)) (w : world St Sy Dn R) : Prop :=
    (forall d, valid d (w_dfas _ _ _ _ w d)) /\ length (w_threads _ _ _ _ w) = length (started l) /\
    forall i t, nth_error (w_threads _ _ _ _ w) i = Some t -> exists p, nth_error (started l) i = Some p /\ tok (w_dfas _ _ _ _ w) p t (cost p - granted i 0 l).
  Lemma granted_snoc i l : forall n e, granted i n (l ++ [e]) = granted i n l + (if (i <? n + length (started l)) && is_step i e then 1 else 0).
  Proof.
    induction l as [|x l IH]; intros n e.
    - cbn [app started flat_map length granted]. rewrite Nat.add_0_r. destruct e; cbn [is_step]; rewrite ?andb_false_r; cbn [granted is_step]; rewrite ?andb_false_r; [reflexivity| |reflexivity]. rewrite Nat.add_0_r. reflexivity.
    - cbn [app granted started flat_map]. destruct x; cbn [app length]; rewrite IH; unfold started; [|rewrite Nat.add_assoc; reflexivity|rewrite Nat.add_assoc; reflexivity]. replace (S n + length (flat_map (fun e0 => match e0 with EStart _ _ _ _ p0 => [p0] | _ => [] end) l)) with (n + S (length (flat_map (fun e0 => match e0 with EStart _ _ _ _ p0 => [p0] | _ => [] end) l))) by lia. reflexivity.
  Qed.
  Lemma started_snoc l e : started (l ++ [e]) = started l ++ match e with EStart _ _ _ _ p => [p] | _ => [] end.
  Proof. unfold started. rewrite flat_map_app. cbn [flat_map]. rewrite app_nil_r. reflexivity. Qed.
  Lemma set_thread_nth i t l j : nth_error (set_thread St Sy Dn R i t l) j = if Nat.eq_dec j i then match nth_error l i with Some _ => Some t | None => None end else nth_error l j.
  Proof.
    unfold set_thread. destruct (nth_error l i) as [t0|] eqn:E.
    - apply nth_put. apply nth_error_Some. congruence.
    - destruct (Nat.eq_dec j i) as [->|]; [exact E|reflexivity].
  Qed.
  Lemma set_thread_length i t l : length (set_thread St Sy Dn R i t l) = length l.
  Proof. unfold set_thread. destruct (nth_error l i) as [t0|] eqn:E; [|reflexivity]. apply put_length. apply nth_error_Some. congruence. Qed.
  Lemma wok_all l : wok l (history l).
  Proof.
    induction l as [|e l IH] using rev_ind.
    - split; [intros d; apply valid_empty|]. split; [reflexivity|]. intros [|i] t H; discriminate H.
    - unfold Cache.history in *. rewrite fold_left_app. cbn [fold_left]. destruct (fold_left happen l (fresh St Sy Dn R)) as [m ts]. destruct IH as (HV & HL & HT). cbn [w_dfas w_threads] in *. unfold wok. cbn [Cache.happen w_dfas w_threads].
      assert (GE : forall i, granted i 0 (l ++ [e]) = granted i 0 l + (if (i <? length ts) && is_step i e then 1 else 0)) by (intros i; rewrite granted_snoc, HL; reflexivity).
      destruct e as [p|j|j]; cbn [Cache.happen w_dfas w_threads].
      + cbn [Cache.happen w_dfas w_threads]. rewrite started_snoc, !app_length. cbn [length]. split; [exact HV|]. split; [rewrite HL; reflexivity|]. intros i t Hi. rewrite GE. cbn [is_step]. rewrite andb_false_r, Nat.add_0_r.
        destruct (Nat.lt_ge_cases i (length ts)) as [H|H].
        * rewrite nth_error_app1 in Hi by exact H. destruct (HT i t Hi) as (p' & A & B). exists p'. rewrite nth_error_app1 by (rewrite <- HL; exact H). auto.
        * rewrite nth_error_app2 in Hi by exact H. destruct (i - length ts) as [|n] eqn:En; [|destruct n; discriminate Hi]. injection Hi as <-. exists p. rewrite nth_error_app2 by lia. replace (i - length (started l)) with 0 by lia. split; [reflexivity|].
          cbn [tok]. split; [reflexivity|]. replace (granted i 0 l) with 0; [lia|]. symmetry. clear - H HL. assert (Hi : length (started l) <= i) by lia. clear H HL. cut (forall n, n + length (started l) <= i -> granted i n l = 0); [intros X; apply X; exact Hi|]. clear Hi.
          induction l as [|x l IH]; intros n Hi; [reflexivity|]. unfold started in Hi. cbn [flat_map] in Hi. rewrite app_length in Hi. fold (started l) in Hi. destruct x; cbn [granted length] in *; [apply IH; lia| |]; replace (i <? n) with false by (symmetry; apply Nat.ltb_ge; lia); cbn [andb]; apply IH; lia.
      + rewrite started_snoc, app_nil_r. destruct (nth_error ts j) as [t|] eqn:Ej.
        * destruct (tstep m t) as [m' t'] eqn:Et. cbn [w_dfas w_threads]. destruct (HT j t Ej) as (p & Hp & Hok). destruct (tstep_ok m p t _ m' t' HV Hok Et) as (V1 & E1 & T1). split; [exact V1|]. split; [rewrite set_thread_length; exact HL|].
          intros i ti Hi. rewrite set_thread_nth, Ej in Hi. rewrite GE. cbn [is_step]. destruct (Nat.eq_dec i j) as [->|Nij].
          -- injection Hi as <-. exists p. split; [exact Hp|]. rewrite Nat.eqb_refl. assert (Hlt : j < length ts) by (apply nth_error_Some; congruence). apply Nat.ltb_lt in Hlt. rewrite Hlt. cbn [andb]. replace (cost p - (granted j 0 l + 1)) with (cost p - granted j 0 l - 1) by lia. exact T1.
          -- destruct (HT i ti Hi) as (p' & A & B). exists p'. split; [exact A|]. replace (i =? j) with false by (symmetry; apply Nat.eqb_neq; exact Nij). rewrite andb_false_r, Nat.add_0_r. exact (tok_ext m m' _ _ _ E1 B).
        * cbn [w_dfas w_threads]. split; [exact HV|]. split; [exact HL|]. intros i ti Hi. destruct (HT i ti Hi) as (p & A & B). exists p. split; [exact A|]. rewrite GE. cbn [is_step]. replace (i =? j) with false; [rewrite andb_false_r, Nat.add_0_r; exact B|]. symmetry. apply Nat.eqb_neq. congruence.
      + rewrite started_snoc, app_nil_r.
        assert (K : forall i ti, nth_error ts i = Some ti -> exists p, nth_error (started l) i = Some p /\ tok m p ti (cost p - granted i 0 (l ++ [EKill _ _ _ _ j]))).
        { intros i ti Hi. destruct (HT i ti Hi) as (p & A & B). exists p. split; [exact A|]. rewrite GE. cbn [is_step]. rewrite andb_false_r, Nat.add_0_r. exact B. }
        assert (D : wok (l ++ [EKill _ _ _ _ j]) (mkWorld _ _ _ _ m (set_thread St Sy Dn R j (Killed _ _ _ _) ts))).
        { split; [exact HV|]. cbn [w_threads w_dfas]. rewrite started_snoc, app_nil_r. split; [rewrite set_thread_length; exact HL|].
          intros i ti Hi. rewrite set_thread_nth in Hi. destruct (Nat.eq_dec i j) as [->|]; [|exact (K i ti Hi)]. destruct (nth_error ts j) as [t0|] eqn:Ej; [|discriminate Hi]. injection Hi as <-. destruct (K j t0 Ej) as (p & A & _). exists p. split; [exact A|exact I]. }
        unfold wok in D. rewrite started_snoc, app_nil_r in D.
        destruct (nth_error ts j) as [[p|d x k|r| |]|]; try exact D; cbn [w_dfas w_threads]; (split; [exact HV|]; split; [exact HL|exact K]).
  Qed.
  Lemma cost_pos p : 0 < cost p.
  Proof. destruct p; cbn [cost]; lia. Qed.

  (** ** The theorems *)
  Theorem memo_right l i p r : nth_error (started l) i = Some p -> nth_error (w_threads _ _ _ _ (history l)) i = Some (Finished _ _ _ _ r) -> r = eval p.
  Proof. intros Hp Hi. destruct (wok_all l) as (_ & _ & HT). destruct (HT i _ Hi) as (p' & A & B). rewrite Hp in A. injection A as <-. exact B. Qed.
  Theorem memo_unbroken l i : nth_error (w_threads _ _ _ _ (history l)) i <> Some (Broken _ _ _ _).
  Proof. intros Hi. destruct (wok_all l) as (_ & _ & HT). destruct (HT i _ Hi) as (p' & A & B). exact B. Qed.
  Theorem memo_progress l i p : nth_error (started l) i = Some p -> cost p <= granted i 0 l ->
    nth_error (w_threads _ _ _ _ (history l)) i = Some (Finished _ _ _ _ (eval p)) \/ nth_error (w_threads _ _ _ _ (history l)) i = Some (Killed _ _ _ _).
  Proof.
    intros Hp Hn. destruct (wok_all l) as (_ & HL & HT). destruct (nth_error (w_threads _ _ _ _ (history l)) i) as [t|] eqn:Ei.
    - destruct (HT i t Ei) as (p' & A & B). rewrite Hp in A. injection A as <-. replace (cost p - granted i 0 l) with 0 in B by lia. destruct t; cbn [tok] in B.
      + pose proof (cost_pos p0). lia.
      + destruct B as (w & _ & _ & B). pose proof (cost_pos (k (walk (start d) w))). lia.
      + left. rewrite B. reflexivity.
      + right. reflexivity.
      + destruct B.
    - exfalso. apply nth_error_None in Ei. assert (i < length (started l)) by (apply nth_error_Some; congruence). lia.
  Qed.
End Shared.
