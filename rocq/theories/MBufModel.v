(** * MBufModel: the collator's buffers of messages and the groups filled from them

    /repo/collator/src/collator/messages_buffer.rs:22-1075 (all but its debug output and its
    tests).

    Simplifications: an account is a number ([dst.as_std()…unwrap_or_default()] gives one for
    every message); a message carries its account, the queue key it has as an internal message,
    and the chain time if it is external; [ExtOut] and special messages, refused by assertions,
    are left out. An [IndexMap] is the list of its entries in order, a [HashMap] or [BTreeMap]
    the list of its entries. The counters that are decreased are integers ([Z]), so that an
    underflow would show; slot ids are [nat] ([u16] in the code, no overflow). [ops_count] is
    left out. *)

From Coq Require Import List NArith ZArith Bool PeanoNat.
From Verif Require Import AMap.
Import ListNotations.

(** ** Messages and filters *)

Record msg := mkMsg { m_acc : N; m_key : N; m_ext : option N }.

Definition is_ext (m : msg) : bool := match m_ext m with Some _ => true | None => false end.
Definition is_int (m : msg) : bool := negb (is_ext m).

(** [MsgFilter], messages_buffer.rs:656-718. *)
Inductive filt := IncludeAll | SkipExpired (threshold : N).

(** [can_skip]. *)
Definition can_skip (f : filt) : bool := match f with IncludeAll => false | SkipExpired _ => true end.

(** [should_skip], messages_buffer.rs:690-698. *)
Definition should_skip (f : filt) (m : msg) : bool :=
  match f with
  | IncludeAll => false
  | SkipExpired t => match m_ext m with Some ct => N.ltb ct t | None => false end
  end.

Notation mget := (aget N.eqb).
Notation mset := (aset N.eqb).
Notation mdel := (adel N.eqb).
Notation mhas := (amem N.eqb).
Notation sget := (aget Nat.eqb).
Notation sset := (aset Nat.eqb).
Notation sdel := (adel Nat.eqb).

(** ** The buffer *)

(** [BufferTransaction], messages_buffer.rs:29-39. *)
Record backup := mkTx {
  x_int : Z; x_ext : Z; x_min : option N;
  x_order : list N;
  x_saved : amap N (list msg) }.

(** [MessagesBuffer], messages_buffer.rs:41-48. *)
Record buffer := mkB {
  b_msgs : amap N (list msg);
  b_int : Z; b_ext : Z; b_min : option N;
  b_tx : option backup }.

(** [MessagesBuffer::default()]. *)
Definition b_empty : buffer := mkB [] 0 0 None None.

(** [begin], messages_buffer.rs:51-60. *)
Definition b_begin (b : buffer) : option buffer :=
  match b_tx b with
  | Some _ => None
  | None => Some (mkB (b_msgs b) (b_int b) (b_ext b) (b_min b)
                   (Some (mkTx (b_int b) (b_ext b) (b_min b) (akeys (b_msgs b)) [])))
  end.

(** [commit], messages_buffer.rs:62-64. *)
Definition b_commit (b : buffer) : option buffer :=
  match b_tx b with
  | Some _ => Some (mkB (b_msgs b) (b_int b) (b_ext b) (b_min b) None)
  | None => None
  end.

(** The loop of [rollback], messages_buffer.rs:84-94: [None] is the failed [expect]. The account
    is taken out of the backups or of the current map. *)
Fixpoint restore_accounts (order : list N) (saved cur acc : amap N (list msg)) : option (amap N (list msg)) :=
  match order with
  | [] => Some acc
  | a :: t =>
      match mget a saved with
      | Some l => restore_accounts t (mdel a saved) cur (mset a l acc)
      | None =>
          match mget a cur with
          | Some l => restore_accounts t saved (mdel a cur) (mset a l acc)
          | None => None
          end
      end
  end.

(** [rollback], messages_buffer.rs:66-97. *)
Definition b_rollback (b : buffer) : option buffer :=
  match b_tx b with
  | None => None
  | Some x =>
      match restore_accounts (x_order x) (x_saved x) (b_msgs b) [] with
      | Some m => Some (mkB m (x_int x) (x_ext x) (x_min x) None)
      | None => None
      end
  end.

(** [backup_account], messages_buffer.rs:106-116. *)
Definition save (a : N) (l : list msg) (b : buffer) : buffer :=
  mkB (b_msgs b) (b_int b) (b_ext b) (b_min b)
    (match b_tx b with
     | Some x =>
         Some (mkTx (x_int x) (x_ext x) (x_min x) (x_order x)
                (match mget a (x_saved x) with
                 | Some _ => x_saved x
                 | None => mset a l (x_saved x)
                 end))
     | None => None
     end).

(** [account_messages_count], messages_buffer.rs:117-122. *)
Definition account_messages_count (a : N) (b : buffer) : nat :=
  match mget a (b_msgs b) with Some l => length l | None => 0 end.

(** [msgs_count], messages_buffer.rs:124-126. *)
Definition msgs_count (b : buffer) : Z := (b_int b + b_ext b)%Z.

(** [update_min_ext_chain_time], messages_buffer.rs:128-135. *)
Definition update_min (ct : option N) (min : option N) : option N :=
  match ct with
  | None => min
  | Some c => match min with
              | Some m => if N.ltb c m then Some c else min
              | None => Some c
              end
  end.

(** [min_ext_chain_time], messages_buffer.rs:137-139. *)
Definition U64MAX : N := 18446744073709551615.
Definition min_ext_chain_time (b : buffer) : N := match b_min b with Some c => c | None => U64MAX end.

Definition set_msgs m (b : buffer) : buffer := mkB m (b_int b) (b_ext b) (b_min b) (b_tx b).

(** [add_message], messages_buffer.rs:145-178. *)
Definition add_message (m : msg) (b : buffer) : buffer :=
  let b := if is_ext m
           then mkB (b_msgs b) (b_int b) (b_ext b + 1) (update_min (m_ext m) (b_min b)) (b_tx b)
           else mkB (b_msgs b) (b_int b + 1) (b_ext b) (b_min b) (b_tx b) in
  match mget (m_acc m) (b_msgs b) with
  | None => set_msgs (mset (m_acc m) [m] (b_msgs b)) b
  | Some l => let b := save (m_acc m) l b in set_msgs (mset (m_acc m) (l ++ [m]) (b_msgs b)) b
  end.

(** [remove_int_messages_by_accounts], messages_buffer.rs:180-195: [retain] visits in order. *)
Fixpoint retain_accounts (rm : N -> bool) (l : amap N (list msg)) (b : buffer) : amap N (list msg) * buffer :=
  match l with
  | [] => ([], b)
  | (a, v) :: t =>
      if rm a then
        let b := save a v b in
        retain_accounts rm t (mkB (b_msgs b) (b_int b - Z.of_nat (length v)) (b_ext b) (b_min b) (b_tx b))
      else
        let '(k, b) := retain_accounts rm t b in ((a, v) :: k, b)
  end.
Definition remove_int_messages (rm : N -> bool) (b : buffer) : buffer :=
  let '(k, b) := retain_accounts rm (b_msgs b) b in set_msgs k b.

(** ** The group *)

(** [SlotInfo], messages_buffer.rs:1003-1014. *)
Record slot := mkSlot { s_accs : list N; s_int : nat; s_ext : nat }.
Definition slot0 : slot := mkSlot [] 0 0.
Definition s_count (s : slot) : nat := s_int s + s_ext s.

(** [MessageGroup] with its [SlotsInfo], messages_buffer.rs:800-804, 973-987. *)
Record group := mkG {
  g_msgs : amap N (list msg);
  g_slots : amap nat slot;
  g_last : option nat;
  g_index : list (list nat);
  g_int : Z; g_ext : Z }.

Definition g_empty : group := mkG [] [] None [] 0 0.

(** [SlotIndexUpdate], messages_buffer.rs:1030-1044. *)
Record upd := mkU { u_oi : nat; u_oe : nat; u_ni : nat; u_ne : nat }.

(** [presize], messages_buffer.rs:1068-1072. *)
Fixpoint presize (n : nat) (l : list (list nat)) : list (list nat) :=
  match n, l with
  | O, [] => [[]]
  | O, _ => l
  | S k, [] => [] :: presize k []
  | S k, x :: t => x :: presize k t
  end.

Fixpoint memb (x : nat) (l : list nat) : bool :=
  match l with [] => false | y :: t => Nat.eqb x y || memb x t end.

Fixpoint put (n : nat) (x : list nat) (l : list (list nat)) : list (list nat) :=
  match l, n with
  | [], _ => []
  | _ :: t, O => x :: t
  | y :: t, S k => y :: put k x t
  end.

(** [get_mut_or_grow(n).insert(id)], messages_buffer.rs:1074-1078, on an [IndexSet]. *)
Definition bucket_add (n id : nat) (l : list (list nat)) : list (list nat) :=
  let l := presize n l in
  let s := nth n l [] in
  put n (if memb id s then s else s ++ [id]) l.

(** ** Filling, messages_buffer.rs:198-486 *)

(** The locals of [fill_message_group] that change while it runs. [f_rest] are the keys of the
    buffer from [buf_account_idx] on: no key is added or removed until the end. [f_expired] is
    the counter [total_skipped] of the filter. *)
Record fstate := mkF {
  f_buf : buffer;
  f_msgs : amap N (list msg);
  f_slots : amap nat slot;
  f_last : option nat;
  f_upds : amap nat upd;
  f_keys : list N;
  f_count : nat;
  f_skip : list N;
  f_expired : nat }.

Definition set_buf x f := mkF x (f_msgs f) (f_slots f) (f_last f) (f_upds f) (f_keys f) (f_count f) (f_skip f) (f_expired f).
Definition set_slots x f := mkF (f_buf f) (f_msgs f) x (f_last f) (f_upds f) (f_keys f) (f_count f) (f_skip f) (f_expired f).
Definition set_last x f := mkF (f_buf f) (f_msgs f) (f_slots f) x (f_upds f) (f_keys f) (f_count f) (f_skip f) (f_expired f).
Definition set_skip x f := mkF (f_buf f) (f_msgs f) (f_slots f) (f_last f) (f_upds f) (f_keys f) (f_count f) x (f_expired f).

(** [SlotContext], messages_buffer.rs:792-798, without the borrowed slot. *)
Record ctx := mkCx { c_id : nat; c_oi : nat; c_oe : nat; c_cap : nat }.

Definition slot_of (id : nat) (f : fstate) : slot :=
  match sget id (f_slots f) with Some s => s | None => slot0 end.

(** The popping loop of [move_account_messages_to_slot], messages_buffer.rs:521-550: what was
    collected, what is left, how many were skipped. *)
Fixpoint pop_loop (fl : filt) (amount : nat) (l : list msg) : list msg * list msg * nat :=
  match l with
  | [] => ([], [], O)
  | m :: t =>
      match amount with
      | O => ([], l, O)
      | S n =>
          if should_skip fl m
          then let '(c, r, k) := pop_loop fl amount t in (c, r, S k)
          else let '(c, r, k) := pop_loop fl n t in (m :: c, r, k)
      end
  end.

Definition is_nil {A} (l : list A) : bool := match l with [] => true | _ => false end.

Definition set_account (a : N) (l : list msg) (ext_sub int_sub : nat) (b : buffer) : buffer :=
  mkB (mset a l (b_msgs b)) (b_int b - Z.of_nat int_sub) (b_ext b - Z.of_nat ext_sub) (b_min b) (b_tx b).

(** Insertion into the [BTreeMap] of updates, ascending by slot id. *)
Fixpoint upd_insert (id : nat) (u : upd) (m : amap nat upd) : amap nat upd :=
  match m with
  | [] => [(id, u)]
  | (k, v) :: t => if Nat.ltb id k then (id, u) :: m else (k, v) :: upd_insert id u t
  end.
Definition upd_note (id : nat) (oi oe ni ne : nat) (m : amap nat upd) : amap nat upd :=
  match sget id m with
  | Some u => sset id (mkU (u_oi u) (u_oe u) ni ne) m
  | None => upd_insert id (mkU oi oe ni ne) m
  end.

(** [move_account_messages_to_slot], messages_buffer.rs:488-606. *)
Definition move (fl : filt) (a : N) (cx : ctx) (f : fstate) : fstate * ctx :=
  match mget a (b_msgs (f_buf f)) with
  | None => (f, cx)
  | Some l =>
      let b := save a l (f_buf f) in
      let amount := Nat.min (length l) (c_cap cx) in
      if Nat.eqb amount 0 then (set_buf b f, cx)
      else
        let old := match mget a (f_msgs f) with Some v => v | None => [] end in
        let '(c, r, k) := pop_loop fl amount l in
        let ni := length (filter is_int c) in
        let ne := length (filter is_ext c) in
        let g := if is_nil (old ++ c) then mdel a (f_msgs f) else mset a (old ++ c) (f_msgs f) in
        let b := set_account a r (k + ne) ni b in
        let s := slot_of (c_id cx) f in
        if Nat.eqb (ni + ne) 0
        then (mkF b g (f_slots f) (f_last f) (f_upds f) (f_keys f) (f_count f) (f_skip f)
                  (k + f_expired f), cx)
        else
          let s := mkSlot (if is_nil old then s_accs s ++ [a] else s_accs s)
                          (s_int s + ni) (s_ext s + ne) in
          (mkF b g (sset (c_id cx) s (f_slots f)) (f_last f)
               (upd_note (c_id cx) (c_oi cx) (c_oe cx) (s_int s) (s_ext s) (f_upds f))
               (f_keys f ++ map m_key (filter is_int c))
               (f_count f + (ni + ne)) (f_skip f) (k + f_expired f),
           mkCx (c_id cx) (c_oi cx) (c_oe cx) (c_cap cx - (ni + ne)))
  end.

(** [try_skip_account_msgs], messages_buffer.rs:608-628. *)
Definition try_skip (fl : filt) (a : N) (f : fstate) : fstate :=
  if can_skip fl then
    match mget a (b_msgs (f_buf f)) with
    | Some l =>
        let b := save a l (f_buf f) in
        let keep := filter (fun m => negb (should_skip fl m)) l in
        let k := length l - length keep in
        mkF (set_account a keep k 0 b) (f_msgs f) (f_slots f) (f_last f) (f_upds f) (f_keys f)
            (f_count f) (f_skip f) (k + f_expired f)
    | None => f
    end
  else f.

Section Fill.
Variable fl : filt.
Variable chk : N -> bool.            (* [check_skip_account] *)
Variable slots_count V : nat.        (* [slot_vert_size] *)

(** [check_skip_account_ext], messages_buffer.rs:237-249. *)
Definition check_skip (a : N) (f : fstate) : bool * fstate :=
  if existsb (N.eqb a) (f_skip f) then (true, f)
  else if chk a then (true, set_skip (a :: f_skip f) f)
  else (false, f).

(** The inner loop of the first step, messages_buffer.rs:282-316; the last component says whether
    the slot was pushed to [not_filled_slots]. *)
Fixpoint walk1 (rest : list N) (cx : ctx) (f : fstate) : list N * fstate * bool :=
  match rest with
  | [] => ([], f, false)
  | a :: t =>
      if mhas a (f_msgs f) then walk1 t cx (try_skip fl a f)
      else
        let '(sk, f) := check_skip a f in
        if sk then walk1 t cx (try_skip fl a f)
        else
          let '(f, cx) := move fl a cx f in
          if Nat.ltb 0 (s_count (slot_of (c_id cx) f))
          then (t, f, Nat.ltb 0 (c_cap cx))
          else walk1 t cx f
  end.

(** The context of a slot; [None] when the subtraction of the capacity underflows. *)
Definition enter (id : nat) (s : slot) : option ctx :=
  if Nat.ltb V (s_count s) then None
  else Some (mkCx id (s_int s) (s_ext s) (V - s_count s)).

Definition max_last (o : option nat) (id : nat) : option nat :=
  match o with Some l => Some (Nat.max l id) | None => Some id end.

(** The loop of the first step, messages_buffer.rs:263-340. [fuel] bounds the number of turns;
    that it is enough is proved. *)
Fixpoint step1 (fuel : nat) (id remaining : nat) (nf used : list nat) (rest : list N) (f : fstate)
    : option (list nat * list N * fstate) :=
  match fuel with
  | O => None
  | S fuel =>
      let s := slot_of id f in
      let f := set_last (max_last (f_last f) id) (set_slots (sset id s (f_slots f)) f) in
      match enter id s with
      | None => None
      | Some cx =>
          let '(rest, f, push) := walk1 rest cx f in
          let nf := if push then nf ++ [id] else nf in
          if Nat.eqb (s_count (slot_of id f)) 0
          then Some (used, rest, set_slots (sdel id (f_slots f)) f)
          else
            let used := id :: used in
            match remaining with
            | S k => step1 fuel (S id) k nf used rest f
            | O => match nf with
                   | n :: nf => step1 fuel n 0 nf used rest f
                   | [] => Some (used, rest, f)
                   end
            end
      end
  end.

(** The accounts already in the slot, messages_buffer.rs:369-394. *)
Fixpoint own (accs : list N) (cx : ctx) (f : fstate) : fstate * ctx :=
  match accs with
  | [] => (f, cx)
  | a :: t =>
      let '(sk, f) := check_skip a f in
      if sk then own t cx (try_skip fl a f)
      else
        let '(f, cx) := move fl a cx f in
        if Nat.eqb (c_cap cx) 0 then (f, cx) else own t cx f
  end.

(** The other accounts of the buffer, messages_buffer.rs:402-432. *)
Fixpoint others (rest : list N) (cx : ctx) (f : fstate) : list N * fstate :=
  match rest with
  | [] => ([], f)
  | a :: t =>
      if mhas a (f_msgs f) then others t cx (try_skip fl a f)
      else
        let '(sk, f) := check_skip a f in
        if sk then others t cx (try_skip fl a f)
        else
          let '(f, cx) := move fl a cx f in
          if Nat.eqb (c_cap cx) 0 then (t, f) else others t cx f
  end.

(** The second step, messages_buffer.rs:342-434, over the slot ids of the buckets below [V]. *)
Fixpoint step2 (ids used : list nat) (rest : list N) (f : fstate) : option (list N * fstate) :=
  match ids with
  | [] => Some (rest, f)
  | id :: t =>
      if memb id used then step2 t used rest f
      else
        match sget id (f_slots f) with
        | None => None
        | Some s =>
            match enter id s with
            | None => None
            | Some cx =>
                let '(f, cx) := own (s_accs s) cx f in
                if Nat.eqb (c_cap cx) 0 then step2 t used rest f
                else let '(rest, f) := others rest cx f in step2 t used rest f
            end
        end
  end.

(** The remaining accounts, messages_buffer.rs:436-442. *)
Fixpoint skip_rest (rest : list N) (f : fstate) : fstate :=
  match rest with [] => f | a :: t => skip_rest t (try_skip fl a f) end.

(** Empty accounts go, and the least chain time with the last message, messages_buffer.rs:444-451. *)
Definition finish (b : buffer) : buffer :=
  let m := filter (fun e : N * list msg => negb (is_nil (snd e))) (b_msgs b) in
  mkB m (b_int b) (b_ext b) (if is_nil m then None else b_min b) (b_tx b).

(** The third step, messages_buffer.rs:453-483. [and_modify(insert).or_default()]: the first slot
    of every old bucket is not put into the set of those to remove. *)
Definition note_removed (old id : nat) (m : amap nat (list nat)) : amap nat (list nat) :=
  match sget old m with
  | Some l => sset old (id :: l) m
  | None => sset old [] m
  end.

Record idx := mkIdx { k_rem : amap nat (list nat); k_index : list (list nat); k_int : Z; k_ext : Z }.

Definition apply_upd (id : nat) (u : upd) (x : idx) : idx :=
  let old := u_oi u + u_oe u in
  let x := if Nat.eqb old 0 then x
           else mkIdx (note_removed old id (k_rem x)) (k_index x)
                      (k_int x - Z.of_nat (u_oi u)) (k_ext x - Z.of_nat (u_oe u)) in
  mkIdx (k_rem x) (bucket_add (u_ni u + u_ne u) id (k_index x))
        (k_int x + Z.of_nat (u_ni u)) (k_ext x + Z.of_nat (u_ne u)).
Fixpoint apply_upds (us : amap nat upd) (x : idx) : idx :=
  match us with [] => x | (id, u) :: t => apply_upds t (apply_upd id u x) end.

Fixpoint drop_old (rem : amap nat (list nat)) (ix : list (list nat)) : list (list nat) :=
  match rem with
  | [] => ix
  | (old, l) :: t =>
      drop_old t (if Nat.leb (length ix) old then ix
                  else put old (filter (fun id => negb (memb id l)) (nth old ix [])) ix)
  end.

(** What a call returns: the buffer, the group, the accounts known to be skipped, the keys of the
    collected internal messages, their number, and the number of expired messages. *)
Record fres := mkRes {
  r_buf : buffer; r_group : group; r_skip : list N;
  r_keys : list N; r_count : nat; r_expired : nat }.

Definition next_slot (g : group) : nat := S (match g_last g with Some l => l | None => 0 end).

Definition fill (skipped : list N) (g : group) (b : buffer) : option fres :=
  let index := presize V (g_index g) in
  let f := mkF b (g_msgs g) (g_slots g) (g_last g) [] [] 0 skipped 0 in
  let rest := akeys (b_msgs b) in
  let after1 :=
    match slots_count - length (g_slots g) with
    | O => Some ([], rest, f)
    | S k => step1 (2 * length rest + 3) (next_slot g) k [] [] rest f
    end in
  match after1 with
  | None => None
  | Some (used, rest, f) =>
      match step2 (concat (firstn V index)) used rest f with
      | None => None
      | Some (rest, f) =>
          let f := if can_skip fl then skip_rest rest f else f in
          let x := apply_upds (f_upds f) (mkIdx [] index (g_int g) (g_ext g)) in
          Some (mkRes (finish (f_buf f))
                      (mkG (f_msgs f) (f_slots f) (f_last f) (drop_old (k_rem x) (k_index x))
                           (k_int x) (k_ext x))
                      (f_skip f) (f_keys f) (f_count f) (f_expired f))
      end
  end.

End Fill.

(** ** The rest of the group *)

(** [check_is_filled], messages_buffer.rs:826-847. *)
Definition g_is_filled (slots_count V : nat) (g : group) : bool :=
  if Nat.ltb 0 (slots_count - length (g_slots g)) then false
  else forallb is_nil (firstn V (g_index g)).

(** [Add], messages_buffer.rs:854-885: the slots of the other group come in any order; [None] is
    the panic on a repeated account. *)
Fixpoint add_slots (next : nat) (l : amap nat slot) (g : group) : group :=
  match l with
  | [] => g
  | (_, s) :: t =>
      add_slots (S next) t
        (mkG (g_msgs g) (sset next s (g_slots g)) (Some next)
             (bucket_add (s_count s) next (g_index g)) (g_int g) (g_ext g))
  end.
Fixpoint add_accounts (l m : amap N (list msg)) : option (amap N (list msg)) :=
  match l with
  | [] => Some m
  | (a, v) :: t => if mhas a m then None else add_accounts t (mset a v m)
  end.
Definition g_add (g other : group) : option group :=
  let g1 := add_slots (match g_last g with Some l => S l | None => 0 end) (g_slots other) g in
  match add_accounts (g_msgs other) (g_msgs g1) with
  | None => None
  | Some m => Some (mkG m (g_slots g1) (g_last g1) (g_index g1)
                        (g_int g1 + g_int other) (g_ext g1 + g_ext other))
  end.

(** [check_is_filled] of the buffer, messages_buffer.rs:751-769: by count only. *)
Definition b_is_full (max_count : Z) (b : buffer) : bool := (max_count <=? msgs_count b)%Z.
