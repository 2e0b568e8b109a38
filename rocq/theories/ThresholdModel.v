(** Models consensus/src/dag/threshold.rs: counting the points of a round until a majority is ready.
    Every loop iteration of [reached], and every half of [add], is one atomic step, so that every interleaving of
    senders with the single consumer is a sequence of steps. Times are milliseconds (UnixTime subtraction saturates).
    The consumers [reached] / [get_reached] exclude each other through the [work] lock. *)
From Verif Require Export PeerCountModel Bytes.
Local Open Scope N_scope.

(** a point: author, time, digest *)
Record pinfo := PI { pi_author : N; pi_time : N; pi_digest : N }.

(** threshold.rs:213-218 ThresholdCount, four u8 *)
Record tcount := TC { tc_target : N; tc_ready : N; tc_delayed : N; tc_chan : N }.
(** threshold.rs:261-263 pack: u32::from_be_bytes *)
Definition tc_pack (c : tcount) : N := de [tc_target c; tc_ready c; tc_delayed c; tc_chan c].
(** threshold.rs:265-273 unpack: to_be_bytes *)
Definition tc_unpack (v : N) : tcount :=
  match be 4 v with
  | [a; b; c; d] => TC a b c d
  | _ => TC 0 0 0 0 (* be 4 always has four bytes *)
  end.

(** threshold.rs:18-19: 365 days in milliseconds *)
Definition too_far : N := 365 * 24 * 3600 * 1000.

(** threshold.rs:22-36. [t_pending] are points whose sender is between the counter increment and the send (add, 71-80);
    [t_added], [t_discarded], [t_taken] are ghost logs of what went in, was discarded as too far in the future, and was
    handed out by get_reached. *)
Record tstate := TS {
  t_target : N; t_cap : N; t_skew : N; t_count : N;
  t_chan : list pinfo; t_pending : list pinfo;
  t_reached : bool; t_ready : list pinfo; t_delayed : list pinfo;
  t_added : list pinfo; t_discarded : list pinfo; t_taken : list pinfo }.

(** threshold.rs:39-59 new *)
Definition t_new (f skew : N) : tstate :=
  TS (majority f) (full f) skew (tc_pack (TC (majority f mod 256) 0 0 0)) [] [] false [] [] [] [] [].

Definition t_set_count c (t : tstate) := TS (t_target t) (t_cap t) (t_skew t) c (t_chan t) (t_pending t) (t_reached t) (t_ready t) (t_delayed t) (t_added t) (t_discarded t) (t_taken t).

(** threshold.rs:221-234 add_one_in_channel; [None]: the [expect] panics *)
Definition add_one_in_channel (v : N) : option N :=
  let c := tc_unpack v in
  if 255 <? tc_chan c + 1 then None else Some (tc_pack (TC (tc_target c) (tc_ready c) (tc_delayed c) (tc_chan c + 1))).

(** threshold.rs:236-259 set_decrease; [None]: one of the [expect]s panics *)
Definition set_decrease (ready delayed : list pinfo) (removed v : N) : option N :=
  let r := N.of_nat (length ready) in let d := N.of_nat (length delayed) in
  let c := tc_unpack v in
  if (255 <? r) || (255 <? d) || (tc_chan c <? removed) then None
  else Some (tc_pack (TC (tc_target c) r d (tc_chan c - removed))).

(** threshold.rs:193-206 push_ready: panics on a second point of an author *)
Definition push_ready (ready : list pinfo) (i : pinfo) : option (list pinfo) :=
  if existsb (fun j => pi_author j =? pi_author i) ready then None else Some (ready ++ [i]).

Inductive tev :=
| EvInc (i : pinfo)          (* add: counter increment, threshold.rs:75 *)
| EvSend (k : nat)           (* add: try_send of the k-th pending point, threshold.rs:76-82 *)
| EvRecv (max_time now : N)  (* reached: a received point; [max_time] is the loop variable, [now] a fresh clock + skew *)
| EvExpire (k : nat)         (* reached: the k-th delayed point expires, threshold.rs:131 *)
| EvCheck                    (* reached: entry check and loop exit, threshold.rs:96-98,109,138 *)
| EvPick (k : nat)           (* the timer wheel orders the delayed points: the k-th comes first *)
| EvTake (max_time : N).     (* get_reached, threshold.rs:142-191 *)

Definition t_upd t cnt chan pend rdy del disc :=
  TS (t_target t) (t_cap t) (t_skew t) cnt chan pend (t_reached t) rdy del (t_added t) disc (t_taken t).

Fixpoint take_nth {A} (k : nat) (l : list A) : option (A * list A) :=
  match l, k with
  | [], _ => None
  | x :: r, O => Some (x, r)
  | x :: r, S k' => match take_nth k' r with Some (y, r') => Some (y, x :: r') | None => None end
  end.

(** threshold.rs:155-167: the head of the delayed queue is popped while it is due *)
Fixpoint take_delayed (max_time : N) (del ready : list pinfo) : option (list pinfo * list pinfo) :=
  match del with
  | [] => Some ([], ready)
  | i :: r => if 0 <? pi_time i - max_time then Some (i :: r, ready)
              else match push_ready ready i with Some rd => take_delayed max_time r rd | None => None end
  end.
(** threshold.rs:168-182: drain the channel; result (removed, delayed, ready, discarded) *)
Fixpoint take_chan (max_time : N) (ch del ready disc : list pinfo) : option (list pinfo * list pinfo * list pinfo) :=
  match ch with
  | [] => Some (del, ready, disc)
  | i :: r =>
      if too_far <? pi_time i - max_time then take_chan max_time r del ready (disc ++ [i])
      else if 0 <? pi_time i - max_time then take_chan max_time r (del ++ [i]) ready disc
      else match push_ready ready i with Some rd => take_chan max_time r del rd disc | None => None end
  end.

(** [None] is a panic, or an event that cannot happen in this state (an empty channel, a missing index) - see [t_enabled]. *)
Definition t_step (t : tstate) (e : tev) : option tstate :=
  match e with
  | EvInc i =>
      match add_one_in_channel (t_count t) with
      | None => None
      | Some c => Some (TS (t_target t) (t_cap t) (t_skew t) c (t_chan t) (t_pending t ++ [i]) (t_reached t) (t_ready t) (t_delayed t)
                           (t_added t ++ [i]) (t_discarded t) (t_taken t))
      end
  | EvSend k =>
      match take_nth k (t_pending t) with
      | None => None
      | Some (i, pend) =>
          if t_cap t <=? N.of_nat (length (t_chan t)) then None
          else Some (t_upd t (t_count t) (t_chan t ++ [i]) pend (t_ready t) (t_delayed t) (t_discarded t))
      end
  | EvRecv max_time now =>
      match t_chan t with
      | [] => None
      | i :: ch =>
          if too_far <? pi_time i - max_time then
            match set_decrease (t_ready t) (t_delayed t) 1 (t_count t) with
            | None => None
            | Some c => Some (t_upd t c ch (t_pending t) (t_ready t) (t_delayed t) (t_discarded t ++ [i]))
            end
          else
            let to_delay := if 0 <? pi_time i - max_time then pi_time i - now else pi_time i - max_time in
            if 0 <? to_delay then
              match set_decrease (t_ready t) (t_delayed t ++ [i]) 1 (t_count t) with
              | None => None
              | Some c => Some (t_upd t c ch (t_pending t) (t_ready t) (t_delayed t ++ [i]) (t_discarded t))
              end
            else
              match push_ready (t_ready t) i with
              | None => None
              | Some rd =>
                  match set_decrease rd (t_delayed t) 1 (t_count t) with
                  | None => None
                  | Some c => Some (t_upd t c ch (t_pending t) rd (t_delayed t) (t_discarded t))
                  end
              end
      end
  | EvExpire k =>
      match take_nth k (t_delayed t) with
      | None => None
      | Some (i, del) =>
          match push_ready (t_ready t) i with
          | None => None
          | Some rd =>
              match set_decrease rd del 0 (t_count t) with
              | None => None
              | Some c => Some (t_upd t c (t_chan t) (t_pending t) rd del (t_discarded t))
              end
          end
      end
  | EvCheck =>
      if t_reached t then Some t
      else if t_target t <=? N.of_nat (length (t_ready t))
           then Some (TS (t_target t) (t_cap t) (t_skew t) (t_count t) (t_chan t) (t_pending t) true (t_ready t) (t_delayed t)
                         (t_added t) (t_discarded t) (t_taken t))
           else Some t
  | EvPick k =>
      match take_nth k (t_delayed t) with
      | None => None
      | Some (i, del) => Some (t_upd t (t_count t) (t_chan t) (t_pending t) (t_ready t) (i :: del) (t_discarded t))
      end
  | EvTake max_time =>
      if negb (t_reached t) then None (* assert! at 150-153 *)
      else match take_delayed max_time (t_delayed t) (t_ready t) with
           | None => None
           | Some (del, rd) =>
               match take_chan max_time (t_chan t) del rd [] with
               | None => None
               | Some (del', rd', disc) =>
                   if 255 <? N.of_nat (length (t_chan t)) then None (* checked_add(1).expect, 170-172 *)
                   else match set_decrease rd' del' (N.of_nat (length (t_chan t))) (t_count t) with
                   | None => None
                   | Some c =>
                       (* mem::take(&mut work.ready), 190 *)
                       Some (TS (t_target t) (t_cap t) (t_skew t) c [] (t_pending t) (t_reached t) [] del'
                                (t_added t) (t_discarded t ++ disc) (t_taken t ++ rd'))
                   end
               end
           end
  end.

(** events the runtime can deliver in a state: the queues are not empty, [reached] runs its loop only while not reached and
    below the target (threshold.rs:96-98,109), get_reached is called after [reached] completed *)
Definition t_enabled (t : tstate) (e : tev) : bool :=
  match e with
  | EvInc _ => true
  | EvSend k => (k <? length (t_pending t))%nat
  | EvRecv _ _ => negb (t_reached t) && (N.of_nat (length (t_ready t)) <? t_target t) && negb (length (t_chan t) =? 0)%nat
  | EvExpire k => negb (t_reached t) && (N.of_nat (length (t_ready t)) <? t_target t) && (k <? length (t_delayed t))%nat
  | EvCheck => true
  | EvPick k => (k <? length (t_delayed t))%nat
  | EvTake _ => t_reached t
  end.
