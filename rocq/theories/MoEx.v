(** C90: concrete cases. *)
From Coq Require Import List NArith Bool Arith Lia.
From Verif Require Import MoModel MoHist MoThms MoLoad.
Import ListNotations.
Local Open Scope N_scope.

(** Tag 0 is tolerated twice in 100 ms, then banned for 1000; tag 1 is banned at once, for 50. *)
Definition conf : config := fun tag =>
  if tag =? 0 then {| c_dur := 1000; c_tol := Some (100, 2%nat) |} else {| c_dur := 50; c_tol := None |}.
Definition ev (p tag : N) : list op := [OReport p tag true true; ORecv].

(** Three events of a window ban, at the third; a restart in the middle of the window changes nothing. *)
Definition h1 : list op := ev 7 0 ++ [OTick 40] ++ ev 7 0 ++ [ORestart []] ++ [OTick 40] ++ ev 7 0.
Definition s1 : st := Eval vm_compute in run conf (init conf) h1.
Example third_event_bans : cur s1 7 = Some {| b_until := 1081; b_key := {| k_time := 81; k_seq := 2 |} |} /\ net s1 7 = true /\ net s1 8 = false.
Proof. vm_compute. auto. Qed.
(** Events spread over a longer time do not. *)
Definition h2 : list op := ev 7 0 ++ [OTick 60] ++ ev 7 0 ++ [OTick 60] ++ ev 7 0.
Example spread_events_do_not : cur (run conf (init conf) h2) 7 = None.
Proof. vm_compute. reflexivity. Qed.

(** A restart with a ban keeps it; it ends at its time. *)
Definition h3 : list op := h1 ++ [ORestart [7]; ORecv; OTick 1000; OAuto 7].
Example a_restart_keeps_the_ban :
  option_map b_until (cur (run conf (init conf) (h1 ++ [ORestart [7]])) 7) = Some 1081 /\
  net (run conf (init conf) (h1 ++ [ORestart [7]])) 7 = true /\ cur (run conf (init conf) h3) 7 = None.
Proof. vm_compute. auto. Qed.

(** The hypotheses are met. *)
Lemma enum_one (t : N -> option temp) p v : t p = Some v -> (forall x, x <> p -> t x = None) -> enumerates t [p].
Proof.
  intros E H. split; [constructor; [intros []|constructor]|]. intros x. cbn. split.
  - intros [<-|[]]. congruence.
  - intros N. left. destruct (N.eq_dec p x); [assumption|]. exfalso. apply N, H. congruence.
Qed.
Lemma enum_none (t : N -> option temp) : (forall x, t x = None) -> enumerates t [].
Proof. intros H. split; [constructor|]. intros x. cbn. split; [intros []|]. intros N. now apply N. Qed.
Lemma other_temp j t x : (forall r, In r j -> r_peer r <> x) -> rs_temp (restore conf t j) x = None.
Proof.
  induction j as [|r j IH] using rev_ind; intros H; [reflexivity|].
  rewrite restore_snoc. assert (R : x <> r_peer r) by (intros E; apply (H r); [apply in_or_app; right; now left|congruence]).
  assert (IH' : rs_temp (restore conf t j) x = None) by (apply IH; intros; apply H, in_or_app; auto).
  unfold restore_one. destruct (r_kind r) as [tg [|]|u|]; auto.
  - destruct (maybe_ban_until _ _ _) as [h [u|]]; [|exact IH'].
    match goal with |- context [if ?c then {| rs_events := _; rs_temp := put _ _ _ |} else _] => destruct c end; cbn; [|exact IH']. now rewrite put_other.
  - match goal with |- context [if ?c then {| rs_events := _; rs_temp := put _ _ _ |} else _] => destruct c end; cbn; [|exact IH']. now rewrite put_other.
  - cbn. now rewrite put_other.
Qed.
Definition j3 : list record := Eval vm_compute in journal s1.
Example h3_is_fair : fair conf (init conf) h3.
Proof.
  unfold h3, h1, ev. cbn [app].
  do 5 (split; [exact Logic.I|]). split.
  { apply enum_none. intros x. set (s := fst _). assert (E : journal s = [
      {| r_key := {| k_time := 0; k_seq := 1 |}; r_peer := 7; r_kind := REvent 0 true |};
      {| r_key := {| k_time := 40; k_seq := 2 |}; r_peer := 7; r_kind := REvent 0 true |}]) by (vm_compute; reflexivity).
    rewrite E. reflexivity. }
  do 3 (split; [exact Logic.I|]). split; [|do 3 (split; [exact Logic.I|]); exact Logic.I].
  set (s := fst _). apply (enum_one _ 7 (1081, Some {| k_time := 81; k_seq := 2 |})).
  - vm_compute. reflexivity.
  - intros x NE. assert (E : journal s = j3) by (vm_compute; reflexivity). rewrite E.
    apply other_temp. intros r H. assert (R : r_peer r = 7); [|congruence].
    unfold j3 in H. cbn [In] in H. destruct H as [<-|[<-|[<-|[<-|[]]]]]; reflexivity.
Qed.

(** Finding: a request to unban is refused, though the peer is banned, if a longer ban is on its way. *)
Definition h4 : list op := [OManualBan 7 500; ORecv; OManualUnban 7; OManualBan 7 900].
Example unban_refused : snd (step conf (run conf (init conf) h4) ORecv) = OUnbanned false /\
  cur (fst (step conf (run conf (init conf) h4) ORecv)) 7 <> None.
Proof. vm_compute. split; [reflexivity|discriminate]. Qed.
(** Finding: a second request just after the first, before the scheduler has the ban, is refused too. *)
Definition h5 : list op := [OManualUnban 7; OManualBan 7 500].
Example unban_before_the_ban : snd (step conf (run conf (init conf) h5) ORecv) = OUnbanned false.
Proof. vm_compute. reflexivity. Qed.
(** Finding: the journal gets a ban which was never in force, as a longer one was. *)
Definition h6 : list op := [OManualBan 7 500; ORecv] ++ ev 7 1.
Example a_ban_only_in_the_journal :
  let s := run conf (init conf) h6 in
  option_map b_until (cur s 7) = Some 500 /\
  map r_kind (journal s) = [RBanned 500; REvent 1 true; RBanned 50].
Proof. vm_compute. auto. Qed.
(** A ban which ends while the node is down is not restored. *)
Example ended_while_down :
  let s := run conf (init conf) [OManualBan 7 500; ORecv; OTick 600] in
  cur s 7 <> None /\ rs_temp (restore conf (now s + 1) (journal s)) 7 = None.
Proof. vm_compute. split; [discriminate|reflexivity]. Qed.
(** Events in the journal whose ban is not there ban at the start. *)
Example a_lost_ban_is_made_again :
  let j := [{| r_key := {| k_time := 10; k_seq := 1 |}; r_peer := 7; r_kind := REvent 1 true |}] in
  let s := start conf j 20 [7] in
  option_map b_until (cur s 7) = Some 60 /\ map r_kind (journal s) = [REvent 1 true; RBanned 60].
Proof. vm_compute. auto. Qed.
(** A start at 1050, when a ban lasts at most 1000, leaves out the first events. *)
Example loaded_part : length (journal s1) = 4%nat /\ length (loaded 50 50 (journal s1)) = 2%nat /\
  rs_temp (restore conf 1050 (loaded 50 50 (journal s1))) 7 = Some (1081, Some {| k_time := 81; k_seq := 2 |}).
Proof. vm_compute. auto. Qed.
Example durations_bounded : (forall tag, c_dur (conf tag) <= 1000) /\ lasting conf 1000 (init conf) h6.
Proof. split; [intros tag; unfold conf; destruct (tag =? 0); cbn; lia|]. vm_compute. repeat apply conj; auto; discriminate. Qed.
(** A ban for longer than that would be lost. *)
Example longer_ban_lost :
  let s := run conf (init conf) [OManualBan 7 5000; ORecv; OTick 2000] in
  cur s 7 <> None /\ rs_temp (restore conf (now s + 1) (loaded 1001 1001 (journal s))) 7 = None.
Proof. vm_compute. split; [discriminate|reflexivity]. Qed.
(** Finding: an operator who deletes a range of the journal deletes bans and their ends with it: a peer banned
    and unbanned is banned after the restart, or one banned is not. *)
Definition kept_records (a b : N) (j : list record) : list record :=
  filter (fun r => negb ((a <=? k_time (r_key r)) && (k_time (r_key r) <? b))) j.
Definition h7 : list op := [OManualBan 7 500; ORecv; OTick 100; OManualUnban 7; ORecv].
Example deleted_unban :
  let s := run conf (init conf) h7 in
  cur s 7 = None /\ option_map fst (rs_temp (restore conf (now s + 1) (journal s)) 7) = None /\
  option_map fst (rs_temp (restore conf (now s + 1) (kept_records 50 200 (journal s))) 7) = Some 500.
Proof. vm_compute. auto. Qed.
Example deleted_ban :
  let s := run conf (init conf) [OManualBan 7 500; ORecv; OTick 100] in
  cur s 7 <> None /\ rs_temp (restore conf (now s + 1) (kept_records 0 50 (journal s))) 7 = None.
Proof. vm_compute. split; [discriminate|reflexivity]. Qed.
