(** The tables that all lexers and all parsers of a process share.

    FCSLexer.py:109 and FCSParser.py:99 create, once per process, one DFA object per decision
    ([decisionsToDFA], a class attribute).  Every FCSLexer and every FCSParser object hands them to its simulator
    (FCSLexer.py:167, FCSParser.py:176), and the simulators of antlr4 4.13.2 (LexerATNSimulator.match / execATN / computeTargetState / addDFAEdge /
    addDFAState, ParserATNSimulator.adaptivePredict / execATN / computeTargetState / addDFAEdge / addDFAState) fill
    them while they work, without locks.  What one call has stored is used by all later calls and by the calls other threads make at the
    same time.

    This file models the tables as mutable objects, a simulation as a sequence of single reads and writes of
    them, and any number of threads.  Simplifications: the configurations of a DFA state are a value ([St]); an object created by a thread
    becomes part of the heap when it is put into the table (nobody else can see it before);
    the attribute [stateNumber], which nothing reads, is left out; PredictionContextCache and ATN.nextTokens' caches are not modelled. *)
From Verif Require Import Base.
Local Open Scope nat_scope.

Section Shared.
  (** Contents of DFA states (configurations, prediction); input symbols; names of the DFAs; results of programs. *)
  Variables (St Sy Dn R : Type).
  Variable St_dec : forall a b : St, {a = b} + {a <> b}.
  Variable Sy_dec : forall a b : Sy, {a = b} + {a <> b}.
  Variable Dn_dec : forall a b : Dn, {a = b} + {a <> b}.
  (** computeStartState; computeReachSet and the verdict on the result ([None]: ERROR); whether the
      loop of execATN ends at a state; whether there is room for an edge (t in -1..maxTokenType, 0..127). *)
  Variable start : Dn -> St.
  Variable step : St -> Sy -> option St.
  Variable stop : St -> bool.
  Variable keeps : Sy -> bool.

  (** ** Without tables *)
  (** What a simulation sees: the states passed, and why it ends. *)
  Inductive ending := AtEnd | Failed | Stopped.
  Fixpoint walk (s : St) (w : list Sy) : list St * ending :=
    match w with
    | [] => ([s], AtEnd)
    | t :: w' =>
        match step s t with
        | None => ([s], Failed)
        | Some s' => if stop s' then ([s; s'], Stopped) else (s :: fst (walk s' w'), snd (walk s' w'))
        end
    end.
  (** A program that uses simulations: it ends, or asks for one and goes on with the answer. *)
  Inductive prog := Ret (r : R) | Ask (d : Dn) (w : list Sy) (k : list St * ending -> prog).
  (** Its result when nothing is stored. *)
  Fixpoint eval (p : prog) : R := match p with Ret r => r | Ask d w k => eval (k (walk (start d) w)) end.

  (** ** The tables *)
  (** An edge leads to ATNSimulator.ERROR or to a state; [edges] of a state is None at first. *)
  Inductive target := TErr | TSt (i : nat).
  Record cell := mkCell { c_content : St; c_edges : option (list (Sy * target)) }.
  (** A DFA object: the state objects; the dictionary [states] (newest first); [s0]. *)
  Record dfa := mkDfa { d_heap : list cell; d_states : list nat; d_s0 : option nat }.
  Definition empty_dfa : dfa := mkDfa [] [] None.
  Definition content (m : dfa) (i : nat) : option St := option_map c_content (nth_error (d_heap m) i).
  Definition edge (m : dfa) (i : nat) (t : Sy) : option target :=
    match nth_error (d_heap m) i with
    | Some c => match c_edges c with
                | Some l => option_map snd (find (fun e => if Sy_dec (fst e) t then true else false) l)
                | None => None
                end
    | None => None
    end.
  Definition set_edges (m : dfa) (i : nat) (l : list (Sy * target)) : dfa :=
    match nth_error (d_heap m) i with
    | Some c => mkDfa (firstn i (d_heap m) ++ mkCell (c_content c) (Some l) :: skipn (S i) (d_heap m)) (d_states m) (d_s0 m)
    | None => m
    end.

  (** ** A simulation, one access at a time *)
  Inductive goal := GStart | GEdge (i : nat) (t : Sy).
  Inductive pc :=
  | Begin                                    (* s0 = dfa.s0 *)
  | Get (s : St) (g : goal)                  (* existing = dfa.states.get(D, None) *)
  | Put (s : St) (g : goal)                  (* dfa.states[D] = D *)
  | Set0 (i : nat)                           (* dfa.s0 = s0 *)
  | Look (i : nat)                           (* D = previousD.edges[t + 1] *)
  | Compute (i : nat) (t : Sy)               (* reach = computeReachSet(previousD.configs, t, False) *)
  | Check (i : nat) (t : Sy) (g : target)    (* if from_.edges is None: *)
  | Make (i : nat) (t : Sy) (g : target)     (*     from_.edges = [None] * (maxTokenType + 2) *)
  | Store (i : nat) (t : Sy) (g : target)    (* from_.edges[t + 1] = to *)
  | Enter (g : target).                      (* if D is ERROR / D.requiresFullContext / D.isAcceptState *)
  (** Where a simulation is: the states passed (last first), the symbols to come. *)
  Record sim := mkSim { m_path : list St; m_rest : list Sy; m_pc : pc }.
  Inductive after := Goes (x : sim) | Answers (a : list St * ending) | Breaks.
  Definition have (g : goal) (i : nat) : pc := match g with GStart => Set0 i | GEdge j t => Check j t (TSt i) end.
  Definition arrive (m : dfa) (x : sim) (i : nat) : after :=
    match content m i with Some s => Goes (mkSim (s :: m_path x) (m_rest x) (Look i)) | None => Breaks end.
  Definition sstep (d : Dn) (m : dfa) (x : sim) : dfa * after :=
    let go := fun p => Goes (mkSim (m_path x) (m_rest x) p) in
    match m_pc x with
    | Begin => (m, match d_s0 m with Some i => arrive m x i | None => go (Get (start d) GStart) end)
    | Get s g =>
        (m, match find (fun i => match content m i with Some s' => if St_dec s' s then true else false | None => false end) (d_states m) with
            | Some i => go (have g i)
            | None => go (Put s g)
            end)
    | Put s g =>
        let i := length (d_heap m) in
        (mkDfa (d_heap m ++ [mkCell s None]) (i :: d_states m) (d_s0 m), go (have g i))
    | Set0 i => (mkDfa (d_heap m) (d_states m) (Some i), arrive m x i)
    | Look i =>
        (m, match m_rest x with
            | [] => Answers (rev (m_path x), AtEnd)
            | t :: _ => match (if keeps t then edge m i t else None) with Some g => go (Enter g) | None => go (Compute i t) end
            end)
    | Compute i t =>
        (m, match content m i with
            | None => Breaks
            | Some s => match step s t with None => go (Check i t TErr) | Some s' => go (Get s' (GEdge i t)) end
            end)
    | Check i t g =>
        (m, match nth_error (d_heap m) i with
            | None => Breaks
            | Some c => if keeps t then match c_edges c with None => go (Make i t g) | Some _ => go (Store i t g) end else go (Enter g)
            end)
    | Make i t g => (set_edges m i [], go (Store i t g))
    | Store i t g =>
        match nth_error (d_heap m) i with
        | Some c => match c_edges c with Some l => (set_edges m i ((t, g) :: l), go (Enter g)) | None => (m, Breaks) end
        | None => (m, Breaks)
        end
    | Enter TErr => (m, Answers (rev (m_path x), Failed))
    | Enter (TSt j) =>
        (m, match content m j, m_rest x with
            | Some s, _ :: w => if stop s then Answers (rev (s :: m_path x), Stopped) else Goes (mkSim (s :: m_path x) w (Look j))
            | _, _ => Breaks
            end)
    end.

  (** ** Threads *)
  Inductive thread :=
  | Running (p : prog)
  | Walking (d : Dn) (x : sim) (k : list St * ending -> prog)
  | Finished (r : R)
  | Killed                                   (* left by an exception from outside: KeyboardInterrupt, MemoryError, .. *)
  | Broken.                                  (* an exception because of something in the tables *)
  Record world := mkWorld { w_dfas : Dn -> dfa; w_threads : list thread }.
  Definition fresh : world := mkWorld (fun _ => empty_dfa) [].
  Definition tstep (dfas : Dn -> dfa) (t : thread) : (Dn -> dfa) * thread :=
    match t with
    | Running (Ret r) => (dfas, Finished r)
    | Running (Ask d w k) => (dfas, Walking d (mkSim [] w Begin) k)
    | Walking d x k =>
        let '(m, a) := sstep d (dfas d) x in
        (fun e => if Dn_dec e d then m else dfas e,
         match a with Goes x' => Walking d x' k | Answers a => Running (k a) | Breaks => Broken end)
    | t => (dfas, t)
    end.
  Definition set_thread (i : nat) (t : thread) (l : list thread) : list thread :=
    match nth_error l i with Some _ => firstn i l ++ t :: skipn (S i) l | None => l end.
  (** What can happen next: a thread starts a program; thread [i] makes a step, or is killed. *)
  Inductive event := EStart (p : prog) | EStep (i : nat) | EKill (i : nat).
  Definition happen (w : world) (e : event) : world :=
    match e with
    | EStart p => mkWorld (w_dfas w) (w_threads w ++ [Running p])
    | EStep i =>
        match nth_error (w_threads w) i with
        | Some t => let '(m, t') := tstep (w_dfas w) t in mkWorld m (set_thread i t' (w_threads w))
        | None => w
        end
    | EKill i =>
        match nth_error (w_threads w) i with
        | Some (Running _) | Some (Walking _ _ _) => mkWorld (w_dfas w) (set_thread i Killed (w_threads w))
        | _ => w
        end
    end.
  Definition history (l : list event) : world := fold_left happen l fresh.
End Shared.
