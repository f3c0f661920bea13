(** What the trace says about the traffic on one channel. Nothing here depends on
    how channels are implemented. *)
From Coq Require Import List ZArith Bool Lia.
From Verif Require Import Util Runtime RuntimeSpec CancelInv DldInv CancelOrd.
Import ListNotations.
Local Open Scope Z_scope.

(** call [k] has returned something other than NECO_OK *)
Definition failed (t : list obs) (k : nat) : bool :=
  existsb (fun z => match z with TRet k' _ _ r _ _ => Nat.eqb k' k && negb (r =? OK) | _ => false end) t.

(** the calls picked out by [sel], in the order in which they were made (the
    trace has the newest event first) *)
Section Sel.
  Context {A : Type} (sel : Z -> op -> option A).
  Fixpoint calls_of (t : list obs) : list (nat * A) :=
    match t with
    | [] => []
    | TCall k c o _ :: t => calls_of t ++ match sel c o with Some a => [(k, a)] | None => [] end
    | _ :: t => calls_of t
    end.
  (** ... without those that have failed *)
  Definition live (t : list obs) : list (nat * A) := filter (fun p => negb (failed t (fst p))) (calls_of t).
End Sel.

(** neco_chan_send on [ch]: the message *)
Definition send_of (ch : nat) (x : Z) (o : op) : option Z :=
  match o with OpSend ch' m _ => if Nat.eqb ch' ch then Some m else None | _ => None end.
(** neco_chan_recv and neco_chan_tryrecv on [ch]: the caller *)
Definition recv_of (ch : nat) (x : Z) (o : op) : option Z :=
  match o with OpRecv ch' _ | OpTryRecv ch' => if Nat.eqb ch' ch then Some x else None | _ => None end.
(** the same with neco_gen_yield, where [G] tells which channel a generator's
    coroutine feeds *)
Definition put_of (G : Z -> option nat) (ch : nat) (x : Z) (o : op) : option Z :=
  match o with
  | OpSend ch' m _ => if Nat.eqb ch' ch then Some m else None
  | OpGenYield m _ => match G x with Some g => if Nat.eqb g ch then Some m else None | None => None end
  | _ => None
  end.
(** the sends to [ch] and the receives from [ch] that have not failed (so far) *)
Definition sends (ch : nat) (t : list obs) : list (nat * Z) := live (send_of ch) t.
Definition receives (ch : nat) (t : list obs) : list (nat * Z) := live (recv_of ch) t.

(** [x]'s call [o] sends to or receives from [ch] *)
Definition uses (G : Z -> option nat) (ch : nat) (x : Z) (o : op) : Prop :=
  match o with
  | OpSend ch' _ _ | OpRecv ch' _ | OpTryRecv ch' => ch' = ch
  | OpGenYield _ _ => G x = Some ch
  | _ => False
  end.
(** nobody broadcasts on [ch] or selects on it *)
Definition plain_on (ch : nat) (t : list obs) : Prop :=
  forall k c o tm, In (TCall k c o tm) t ->
    match o with
    | OpBcast ch' _ => ch' <> ch
    | OpSelect chs _ | OpTrySelect chs => ~ In ch chs
    | _ => True
    end.
(** cancels have no deadlines, and spare everyone who sends to or receives from [ch] *)
Definition calm (G : Z -> option nat) (ch : nat) (t : list obs) : Prop :=
  nofincancel t /\ forall k c o tm, In (TCall k c o tm) t -> uses G ch c o -> spared t c.
(** no such coroutine is canceled; on [ch] no deadlines, no broadcast and no select *)
Definition simple_on (G : Z -> option nat) (ch : nat) (t : list obs) : Prop :=
  calm G ch t /\
  forall k c o tm, In (TCall k c o tm) t ->
    match o with
    | OpSend ch' _ dl | OpRecv ch' dl => ch' = ch -> dl = MAXI
    | OpGenYield _ dl => G c = Some ch -> dl = MAXI
    | OpBcast ch' _ => ch' <> ch
    | OpSelect chs _ | OpTrySelect chs => ~ In ch chs
    | _ => True
    end.
Lemma simple_plain : forall G ch t, simple_on G ch t -> plain_on ch t.
Proof. intros G ch t [_ H] k c o tm IN. specialize (H _ _ _ _ IN). destruct o; auto. Qed.
Lemma plain_old : forall ch p t, plain_on ch (p ++ t) -> plain_on ch t.
Proof. intros ch p t H k c o tm IN. eapply H. apply in_or_app. right. exact IN. Qed.
Definition simple_chan : nat -> list obs -> Prop := simple_on (fun _ => None).

Lemma calm_old : forall G ch p t, calm G ch (p ++ t) -> calm G ch t.
Proof.
  intros G ch p t [A B]. split; [intros k c id dl tm IN; eapply A; apply in_or_app; right; exact IN|].
  intros k c o tm IN U. eapply spared_old, B; [apply in_or_app; right; exact IN | exact U].
Qed.
Lemma simple_old : forall G ch p t, simple_on G ch (p ++ t) -> simple_on G ch t.
Proof. intros G ch p t [A B]. split; [eapply calm_old, A | intros k c o tm IN; eapply B; apply in_or_app; right; exact IN]. Qed.
