(** Executions of the whole stack on the local network, computed from a list of
    commands.  No counterpart in the source: only for concrete examples. *)

From Coq Require Import NArith.
From mathcomp Require Import all_ssreflect zify.
From Verif Require Import MachineModel RouterModel RouteModel StackModel FigureStack.
Set Implicit Arguments.
Unset Strict Implicit.
Unset Printing Implicit Defensive.

(** Which task of which party takes a step: the code goes on, sends, calls [recv] or
    gets its oldest message; the receive router takes a message or a request; the
    network forwards for a party, picks a message, pushes it to the next recipient. *)
Inductive cmd := CTau of nat | CSend of nat | CRecv of nat | CGot of nat | CArrive of nat | CRequest of nat | CForward of nat | CPick | CPush.

Section Exec.
Variables (n : nat) (V : Type).
Notation I := [eqType of seq N].
Notation D := [eqType of seq N].
Notation stack := (stack D V lnet).
Definition bytes_id : D -> seq N := fun x => x.
Notation sstep := (@sstep n D bytes_id V lnet (lnstep n) l_out).

Definition exec (x : cmd) (s : stack) : option stack :=
  match x with
  | CTau i => if (i < n) is true then
      match p_task (s_party s i) with
      | TRun (Gath id got k) => if all isSome got is true then Some (set_party s i (with_task (s_party s i) (TRun (k (pmap (fun x => x) got))))) else None
      | _ => None
      end else None
  | CSend i => if (i < n) is true then
      match p_task (s_party s i) with
      | TRun (Send to id d k) => let x := s_net s in
          Some (Stack (LNet (upd (l_inp x) i (rcons (l_inp x i) (to, (id, bytes_id d)))) (l_router x) (l_cur x) (l_out x))
            (upd (s_party s) i (with_task (s_party s i) (TRun k))) (rcons (s_calls s) (i, (to, (id, bytes_id d)))))
      | _ => None
      end else None
  | CRecv i => if (i < n) is true then let p := s_party s i in
      match p_task p with
      | TRun q => if wanted q is Some id then
          Some (set_party s i (Party (TWait (p_next p) id q) (p_next p).+1 (rcons (p_chan p) (id, p_next p)) (p_router p) (p_read p) (p_slots p) (p_lost p))) else None
      | _ => None
      end else None
  | CGot i => if (i < n) is true then let p := s_party s i in
      match p_task p, p_slots p with
      | TWait h id q, (h', m) :: r => if h == h' is true then
          Some (set_party s i (Party (TRun (feed q (m_from m) (m_data m))) (p_next p) (p_chan p) (p_router p) (p_read p) r (p_lost p))) else None
      | _, _ => None
      end else None
  | CArrive i => if (i < n) is true then let p := s_party s i in
      if drop (p_read p) (l_out (s_net s) i) is y :: _ then
        if rstep (p_router p) (Arrive (msg_of y)) is Some (r, hand, gone) then
          Some (set_party s i (Party (p_task p) (p_next p) (p_chan p) r (p_read p).+1 (p_slots p ++ hand) (p_lost p ++ gone))) else None
      else None else None
  | CRequest i => if (i < n) is true then let p := s_party s i in
      if p_chan p is (id, h) :: rest then
        if rstep (p_router p) (Request id h) is Some (r, hand, gone) then
          Some (set_party s i (Party (p_task p) (p_next p) rest r (p_read p) (p_slots p ++ hand) (p_lost p ++ gone))) else None
      else None else None
  | CForward i => if (i < n) is true then let x := s_net s in
      if l_inp x i is m :: q then
        Some (Stack (LNet (upd (l_inp x) i q) (rcons (l_router x) (i, m)) (l_cur x) (l_out x)) (s_party s) (s_calls s)) else None
      else None
  | CPick => let x := s_net s in
      match l_cur x, l_router x with
      | [::], (i, m) :: q => Some (Stack (LNet (l_inp x) q [seq (r, (i, m.2)) | r <- targets n m.1] (l_out x)) (s_party s) (s_calls s))
      | _, _ => None
      end
  | CPush => let x := s_net s in
      if l_cur x is (r, y) :: q then
        if (r < n) is true then
          Some (Stack (LNet (l_inp x) (l_router x) q (upd (l_out x) r (rcons (l_out x r) y))) (s_party s) (s_calls s)) else None
      else None
  end.

Lemma exec_step x s s' : exec x s = Some s' -> sstep s s'.
Proof.
case: x => [i|i|i|i|i|i|i||]; rewrite /exec; cbv zeta.
- case E: (i < n) => //; case Et: (p_task _) => [[| | | |id got k|]| |] //; case Eg: (all _ _) => // -[<-].
  by apply: StTau => //; rewrite Et; exact: TsDone.
- case E: (i < n) => //; case Et: (p_task _) => [[| |to id d k| | |]| |] // [<-].
  apply: StSend => //; [by rewrite Et; exact: TsSend|exact: LnCall].
- case E: (i < n) => //; case Et: (p_task _) => [q| |] //; case Ew: (wanted q) => [id|] // [<-].
  by apply: StReq => //; rewrite Et; exact: TsReq.
- case E: (i < n) => //; case Et: (p_task _) => [|h id q|] //; case Es: (p_slots _) => [|[h' m] r] //; case: eqP => // Eh [<-]; subst h'.
  apply: (@StGot _ _ _ _ _ _ _ _ i h (m_id m) (m_from m) (m_data m) _ [::] r) => //; first by rewrite Es; case: (m).
  by rewrite Et; exact: TsGot.
- case E: (i < n) => //; case Ed: (drop _ _) => [|y rest] //; case Er: (rstep _ _) => [[[r hand] gone]|] // [<-].
  exact: StArrive E Ed Er.
- case E: (i < n) => //; case Ec: (p_chan _) => [|[id h] rest] //; case Er: (rstep _ _) => [[[r hand] gone]|] // [<-].
  exact: StRequest E Ec Er.
- case E: (i < n) => //; case El: (l_inp _ _) => [|m q] // [<-].
  by apply: StNet; exact: LnForward.
- case Ec: (l_cur _) => [|//]; case El: (l_router _) => [|[i m] q] // [<-].
  by apply: StNet; exact: LnPick.
- case Ec: (l_cur _) => [|[r y] q] //; case E: (r < n) => // -[<-].
  by apply: StNet; exact: LnPush.
Qed.

Fixpoint exec_all (xs : seq cmd) (s : stack) : option stack :=
  if xs is x :: r then if exec x s is Some s' then exec_all r s' else None else Some s.

Lemma exec_steps xs s0 s s' : steps sstep s0 s -> exec_all xs s = Some s' -> steps sstep s0 s'.
Proof.
elim: xs s => [|x xs IH] s H /=; first by case=> <-.
by case E: (exec x s) => [s1|] //; apply: IH; exact: Step H (exec_step E).
Qed.

End Exec.
