(** Models consensus/src/models/peer_count.rs. *)
From Coq Require Export List NArith Lia Bool.
Export ListNotations.
Local Open Scope N_scope.

(** Result of [PeerCount::try_from]: the stored u8 is F; an error below three peers (peer_count.rs:22-24);
    a panic (the [assert!] at 29-32) when 3F+1 does not fit u8. *)
Inductive pc_res := PcOk (f : N) | PcErr | PcPanic.

(** peer_count.rs:18-36 *)
Definition peer_count (total : N) : pc_res :=
  if total <? 3 then PcErr
  else let one_f := (total + 1) / 3 in
       if 255 <? one_f * 3 + 1 then PcPanic else PcOk one_f.

(** peer_count.rs:40 GENESIS, 41 MAX *)
Definition pc_genesis : N := 0.
Definition pc_max : N := (255 - 1) / 3.
(** peer_count.rs:43-45 full, 47-49 majority, 52-56 majority_of_others, 59-61 reliable_minority *)
Definition full (f : N) : N := f * 3 + 1.
Definition majority (f : N) : N := f * 2 + 1.
Definition majority_of_others (f : N) : N := f * 2.
Definition reliable_minority (f : N) : N := f + 1.
