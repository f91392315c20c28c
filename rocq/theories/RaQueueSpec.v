(** * Sequential specification of the queue on release/acquire memory

    As in QueueSpec.v, except that empty() is not constrained: its two loads may
    both be old. *)
From stdpp Require Import gmap list numbers.
From Verif Require Import Lin PoolModel QueueModel RaMem RaLin.

Inductive rqspec (nb : bool) : list val -> qop -> qret -> list val -> Prop :=
  | rs_push a b v : rqspec nb a (Push b v) (RBool true) (a ++ [v])
  | rs_push_fail a b v : nb = false \/ b = true -> rqspec nb a (Push b v) (RBool false) a
  | rs_push_exn a b v : nb = true -> b = false -> rqspec nb a (Push b v) RExn a
  | rs_pop a v : rqspec nb (v :: a) Pop (RPop (Some v)) a
  | rs_pop_empty : rqspec nb [] Pop (RPop None) []
  | rs_empty a b : rqspec nb a Empty (RBool b) a
  | rs_reserve a n : rqspec nb a (Reserve n) RUnit a
  | rs_reserve_exn a n : rqspec nb a (Reserve n) RExn a.

(** Successful pushes and pops. *)
Definition put_call (x : nat * qop * qret) : bool :=
  match x.1.2, x.2 with Push _ _, RBool true => true | _, _ => false end.
Definition take_call (x : nat * qop * qret) : bool :=
  match x.1.2, x.2 with Pop, RPop (Some _) => true | _, _ => false end.
Definition puts (S : list (nat * qop * qret)) : nat := length (filter (fun x => put_call x = true) S).
Definition takes (S : list (nat * qop * qret)) : nat := length (filter (fun x => take_call x = true) S).

Notation vevent := (event qop qret * view)%type.

(** [S] is a legal sequential order of calls of the history [h], whose events
    carry the views of their threads. *)
Record hb_order (nb : bool) (h : list vevent) (S : list (nat * qop * qret)) (b : list val) : Prop := {
  (* each call at most once *)
  ho_nodup : NoDup (S.*1.*1);
  (* only calls of the history *)
  ho_calls : forall i o r, (i, o, r) ∈ S -> exists t, h.*1 !! i = Some (Inv t o);
  (* every completed call, with the result it returned *)
  ho_complete : forall i j t o r, call_returns h.*1 i j t o r -> (i, o, r) ∈ S;
  (* a call whose return happens before another call comes first *)
  ho_hb : forall S1 x S2 y S3 j t o r e e' V W,
      S = S1 ++ x :: S2 ++ y :: S3 -> call_returns h.*1 y.1.1 j t o r ->
      h !! j = Some (e, V) -> h !! x.1.1 = Some (e', W) -> ~ hb t V W;
  (* a call that returned before a successful push was called comes before that push,
     and one successful pop that returned before another was called comes before that pop *)
  ho_time : forall S1 x S2 y S3 j t o r,
      S = S1 ++ x :: S2 ++ y :: S3 ->
      put_call x = true \/ (take_call x = true /\ take_call y = true) ->
      call_returns h.*1 y.1.1 j t o r -> x.1.1 <= j;
  (* and the sequential order is legal *)
  ho_legal : legal (rqspec nb) [] S b;
}.

(** A pop has seen everything that the callers of the pushes of its own and of
    all earlier elements had done or seen when they called: [x] is a push, [y] a
    pop, and the element of [x] is not newer than that of [y]. *)
Definition handed_over (h : list vevent) (S : list (nat * qop * qret)) : Prop :=
  forall S1 x S2 y S3 j t o r e e' (V W : view),
    S = S1 ++ x :: S2 ++ y :: S3 -> put_call x = true -> take_call y = true ->
    puts S1 <= takes (S1 ++ x :: S2) ->
    call_returns h.*1 y.1.1 j t o r -> h !! j = Some (e, W) -> h !! x.1.1 = Some (e', V) ->
    vle V W.
