(** A download of one point: whom it asks, when, and what it decides.

    Models consensus/src/intercom/dependency/peer_queue.rs and downloader.rs (DownloadTask,
    current_peers). The queue of peers is the map of VomModel. Each arm of the [select!] is one
    event; the events come in any order, so that the priority of the arms ([biased]) is not used.
    A failed assertion and [panic!] are [None]. Point::parse and BasicVerifier::verify are inputs:
    a response carries its parse result, the verdict comes with the event. The reason of an error
    and the reports to the moderator are left out, logs and metrics too. The wait for a permit of
    the limiter (C80) and of the peer (download_rate_limit.rs) only delays events. *)
From Coq Require Import List Bool NArith Lia.
From Verif Require Import OMap VomModel PeerCountModel.
Import ListNotations.
Local Open Scope N_scope.

Definition peer := N.
(** a point id; [0] and so on are names *)
Definition pid := N.

(** peer_queue.rs 10-22: [t_res] is [state.0 == Resolved] *)
Record status := St {
  t_res : bool;
  t_flight : bool;
  t_last : option N;
  t_failed : N;
  t_indep : bool;
  t_rand : N }.

(** the derived order of [PeerStatus]: field by field; Resolved before Unknown (peer_queue.rs 31-41),
    [false] before [true], [None] before [Some] *)
Definition st_key (s : status) : list N :=
  [(if t_res s then 0 else 1); (if t_flight s then 1 else 0); match t_last s with None => 0 | Some a => a + 1 end;
   t_failed s; (if t_indep s then 1 else 0); t_rand s].
Fixpoint lex (a b : list N) : comparison :=
  match a, b with
  | [], [] => Eq | [], _ => Lt | _, [] => Gt
  | x :: r, y :: t => match N.compare x y with Eq => lex r t | c => c end
  end.
Definition st_cmp (a b : status) : comparison := lex (st_key a) (st_key b).
(** [Reverse<PeerStatus>] *)
Definition rev_cmp (a b : status) : comparison := st_cmp b a.

Definition queue := vom N status.
Definition q_get (p : peer) (q : queue) : option status := vm_get N.compare p q.

(** peer_queue.rs 44-53 *)
Definition st_new (res : bool) (rand : N) : status := St res false None 0 true rand.
(** peer_queue.rs 54-58 *)
Definition is_ready (s : status) (attempt : N) : bool :=
  t_res s && negb (t_flight s) && match t_last s with None => true | Some a => a <? attempt end.

Definition st_eqb (a b : status) : bool := match st_cmp a b with Eq => true | _ => false end.
(** [PartialEq::ne] *)
Definition ne (a b : status) : bool := negb (st_eqb a b).
Definition q_put (p : peer) (s : status) (q : queue) : queue := fst (upsert N.compare rev_cmp p s ne q).

(** peer_queue.rs 69-79 *)
Definition take_to_flight (attempt : N) (q : queue) : option (peer * queue) :=
  match vm_maxe q with
  | None => None
  | Some (p, s) =>
      if is_ready s attempt then Some (p, q_put p (St (t_res s) true (Some attempt) (t_failed s) (t_indep s) (t_rand s)) q) else None
  end.
(** peer_queue.rs 83-92 *)
Definition q_update (p : peer) (f : status -> status) (q : queue) : option queue :=
  match q_get p q with None => None | Some s => Some (q_put p (f s) q) end.
(** the result of [update] is ignored *)
Definition q_update_ (p : peer) (f : status -> status) (q : queue) : queue :=
  match q_update p f q with Some q' => q' | None => q end.

(** downloader.rs 482-493. [usize] has room for the product of [u8] and [u32]. *)
Definition current_peers (attempt already f d : N) : N :=
  N.min (N.max (d * attempt) 1) (reliable_minority f) - already.

(** the result of Point::parse: downloader.rs 281-286 *)
Inductive parsed := PPoint (i : pid) | PIllFormed (i : pid) | PBad | PTl.
(** DownloadResponse and QueryError *)
Inductive resp := RDefined (x : parsed) | RNone | RTl | RTryLater | RNetwork.
(** DownloadResult, or the result of the broadcast, or [Err(Cancelled())] *)
Inductive outcome := ONotFound | OVerified (i : pid) | OIllFormed (i : pid) | OBroadcast | OCancelled.

(** what the task is made with, downloader.rs 82-130: the signers and their states, the author, F,
    [download_peers], the requested id, and the random numbers of [PeerStatus::new] *)
Record conf := Conf {
  c_vset : list (peer * bool);
  c_author : peer;
  c_author_res : bool;
  c_f : N;
  c_down : N;
  c_id : pid;
  c_rand : peer -> N }.

(** downloader.rs 134-154. [d_down]: the peers of [downloading]; [d_slot]: [parse_slot], if taken;
    [d_asked]: all queries so far with their attempts, only for statements. *)
Record task := Task {
  d_q : queue;
  d_down : list peer;
  d_slot : option (peer * parsed);
  d_pq : list (peer * parsed);
  d_nf : list peer;
  d_attempt : N;
  d_asked : list (peer * N);
  d_out : option outcome }.

Definition has (p : peer) (l : list peer) : bool := existsb (N.eqb p) l.
Fixpoint rm (p : peer) (l : list peer) : list peer :=
  match l with [] => [] | x :: r => if x =? p then r else x :: rm p r end.

(** downloader.rs 104-125 *)
Definition new_queue (c : conf) : queue :=
  vm_from_iter N.compare rev_cmp
    (map (fun e => (fst e, st_new (snd e) (c_rand c (fst e)))) (c_vset c ++ [(c_author c, c_author_res c)])).
Definition task_new (c : conf) : task := Task (new_queue c) [] None [] [] 0 [] None.
Definition out_of_vset (c : conf) : bool := negb (has (c_author c) (map fst (c_vset c))).

(** downloader.rs 251-260: the loop *)
Fixpoint take_n (k : nat) (y : task) : task :=
  match k with
  | O => y
  | S k =>
      match take_to_flight (d_attempt y) (d_q y) with
      | None => y
      | Some (p, q) =>
          take_n k (Task q (p :: d_down y) (d_slot y) (d_pq y) (d_nf y) (d_attempt y) ((p, d_attempt y) :: d_asked y) (d_out y))
      end
  end.
(** downloader.rs 243-261 *)
Definition download_random (c : conf) (y : task) : task :=
  take_n (N.to_nat (current_peers (d_attempt y) (N.of_nat (length (d_down y))) (c_f c) (c_down c))) y.

Definition with_q (y : task) (q : queue) : task := Task q (d_down y) (d_slot y) (d_pq y) (d_nf y) (d_attempt y) (d_asked y) (d_out y).
Definition with_nf (y : task) (l : list peer) : task := Task (d_q y) (d_down y) (d_slot y) (d_pq y) l (d_attempt y) (d_asked y) (d_out y).
Definition with_out (y : task) (o : outcome) : task := Task (d_q y) (d_down y) (d_slot y) (d_pq y) (d_nf y) (d_attempt y) (d_asked y) (Some o).
Definition with_slot (y : task) (s : option (peer * parsed)) (pq : list (peer * parsed)) : task :=
  Task (d_q y) (d_down y) s pq (d_nf y) (d_attempt y) (d_asked y) (d_out y).
Definition with_down (y : task) (l : list peer) : task := Task (d_q y) l (d_slot y) (d_pq y) (d_nf y) (d_attempt y) (d_asked y) (d_out y).

(** [on_try_later], downloader.rs 275-282. [failed_queries] is bounded by [usize::MAX] in the code. *)
Definition retry_later (s : status) : status := St (t_res s) false (t_last s) (t_failed s + 1) (t_indep s) (t_rand s).
(** [on_not_found], downloader.rs 324-331; the set ignores what it has *)
Definition on_not_found (c : conf) (p : peer) (y : task) : task :=
  if out_of_vset c && (p =? c_author c) then y
  else if has p (d_nf y) then y else with_nf y (p :: d_nf y).

(** downloader.rs 263-427: [None]: panic; the outcome, if any. [v]: the verdict of BasicVerifier. *)
Definition inspect (c : conf) (p : peer) (r : resp) (v : bool) (y : task) : option (task * option outcome) :=
  let on_try_later := match q_update p retry_later (d_q y) with Some q => Some (with_q y q, None) | None => None end in
  let last (k : task -> task * option outcome) :=
    match vm_remove N.compare p (d_q y) with
    | (_, None) => None
    | (q, Some s) => if t_flight s then Some (k (with_q y q)) else None
    end in
  match r with
  | RTryLater | RNetwork => on_try_later
  | RNone | RTl | RDefined PBad | RDefined PTl => last (fun y => (on_not_found c p y, None))
  | RDefined (PIllFormed i) =>
      last (fun y => if i =? c_id c then (y, Some (OIllFormed i)) else (on_not_found c p y, None))
  | RDefined (PPoint i) =>
      last (fun y => if i =? c_id c then (y, Some (if v then OVerified i else OIllFormed i)) else (on_not_found c p y, None))
  end.

(** downloader.rs 201-209 and 212-216: [inspect], then the count *)
Definition decide (c : conf) (x : task * option outcome) : task :=
  match snd x with
  | Some o => with_out (fst x) o
  | None => if majority_of_others (c_f c) <=? N.of_nat (length (d_nf (fst x))) then with_out (fst x) ONotFound else fst x
  end.

Inductive event :=
| EBroadcast (received : bool)            (* [broadcast_result]: a result or a dropped sender *)
| EDepender (p : peer)
| EUpdate (p : peer) (resolved : bool)
| ELagged
| EClosed
| EResponse (p : peer) (r : resp)         (* [downloading.next()] *)
| EParsed (v : bool)                      (* [parse_slot]; the verdict on the point *)
| ETick.

Definition u32_max : N := 4294967295.

(** downloader.rs 170-234, 236-241, 429-450 *)
Definition step (c : conf) (y : task) (e : event) : option task :=
  match e with
  | EBroadcast true => Some (with_out y OBroadcast)
  | EBroadcast false => Some y
  | EDepender p => Some (with_q y (q_update_ p (fun s => St (t_res s) (t_flight s) (t_last s) (t_failed s) false (t_rand s)) (d_q y)))
  | EUpdate p r => Some (with_q y (q_update_ p (fun s => St r (t_flight s) (t_last s) (t_failed s) (t_indep s) (t_rand s)) (d_q y)))
  | ELagged => Some y
  | EClosed => Some (with_out y OCancelled)
  | EResponse p r =>
      let y := with_down y (rm p (d_down y)) in
      match r with
      | RDefined x =>
          Some (match d_slot y with
                | Some s => with_slot y (Some s) (d_pq y ++ [(p, x)])
                | None => with_slot y (Some (p, x)) (d_pq y)
                end)
      | _ =>
          match inspect c p r false y with
          | None => None
          | Some x =>
              let y := decide c x in
              Some (match d_out y, d_slot y with None, None => download_random c y | _, _ => y end)
          end
      end
  | EParsed v =>
      match d_slot y with
      | None => None
      | Some (p, x) =>
          match inspect c p (RDefined x) v y with
          | None => None
          | Some z =>
              let y := decide c z in
              Some (match d_out y with
                    | Some _ => with_slot y None (d_pq y)
                    | None => match rev (d_pq y) with
                              | (* [Vec::pop] *) e :: r => with_slot y (Some e) (rev r)
                              | [] => download_random c (with_slot y None [])
                              end
                    end)
          end
      end
  | ETick =>
      let y := download_random c y in
      Some (Task (d_q y) (d_down y) (d_slot y) (d_pq y) (d_nf y) (if d_attempt y =? u32_max then 0 else d_attempt y + 1) (d_asked y) (d_out y))
  end.

(** which arms can fire: nothing after the loop is left; the slot arm only if it is taken, the timer only if not *)
Definition enabled (y : task) (e : event) : bool :=
  match d_out y with
  | Some _ => false
  | None =>
      match e with
      | EResponse p _ => has p (d_down y)
      | EParsed _ => match d_slot y with Some _ => true | None => false end
      | ETick => match d_slot y with Some _ => false | None => true end
      | _ => true
      end
  end.

Inductive runs (c : conf) : list event -> task -> Prop :=
| d_nil : runs c [] (task_new c)
| d_snoc l y e y' : runs c l y -> enabled y e = true -> step c y e = Some y' -> runs c (l ++ [e]) y'.
