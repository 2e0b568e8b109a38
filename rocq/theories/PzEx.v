(** C94: concrete cases of resolving peers. *)
From Coq Require Import List NArith Bool.
From Verif Require Import PzModel PzThms.
Import ListNotations.
Local Open Scope N_scope.

(** two inserts of one peer share a state: two handles *)
Definition shared := run init [OInsert 7 false; OInsert 7 false; OInsert 8 true].
Example both_live : strong shared 0 = 2%nat /\ strong shared 1 = 1%nat /\ peer_of shared 0 = 7 /\ peer_of shared 1 = 8 /\
  prog shared 0 = Unset /\ prog shared 1 = Told.
Proof. vm_compute. auto 10. Qed.
Example insert_shares : inserted shared 7 = 0 /\ strong (step shared (OInsert 7 false)) 0 = 3%nat.
Proof. vm_compute. auto. Qed.

(** the last handle is dropped and another inserted before the removal: the new one stays in the map *)
Definition raced := run init [OInsert 7 false; ODrop 0; OInsert 7 false; ORemove 7].
Example new_one_stays : tasks raced 7 = Some 1 /\ strong raced 1 = 1%nat /\ strong raced 0 = 0%nat /\ drops raced = [].
Proof. vm_compute. auto. Qed.
(** two last handles, of two states of a peer, before either removal *)
Definition twice := run init [OInsert 7 false; ODrop 0; OInsert 7 false; ODrop 1].
Example two_removals : drops twice = [7; 7] /\ tasks twice 7 = Some 1 /\ tasks (run twice [ORemove 7]) 7 = None /\
  drops (run twice [ORemove 7; ORemove 7]) = [].
Proof. vm_compute. auto. Qed.
Example gone : forall p, tasks (run twice [ORemove 7; ORemove 7]) p = None.
Proof. intros p. unfold twice. cbn. unfold put. destruct (p =? 7); reflexivity. Qed.

(** one who waits is woken when the peer is resolved, between any two of its steps *)
Definition waiting := run init [OInsert 7 false; OWait 1 0; OCheck 1; OTask 0; OTask 0; OTask 0].
Example is_woken : waiters waiting 1 = Some (0, 0, true) /\ prog waiting 0 = Told /\ gen waiting 0 = 1.
Proof. vm_compute. auto. Qed.
Example then_leaves : waiters (step (step waiting (OCheck 1)) (OCheck 1)) 1 = None.
Proof. apply (resolver_no_lost_wakeup [OInsert 7 false; OWait 1 0; OCheck 1; OTask 0; OTask 0; OTask 0] 1 0 0); vm_compute; reflexivity. Qed.
(** the handle is locked while the task sets it: nobody leaves before waiters are told *)
Example not_between : waiters (run init [OInsert 7 false; OWait 1 0; OTask 0; OTask 0; OCheck 1]) 1 = Some (0, 0, false).
Proof. vm_compute. reflexivity. Qed.

(** with the default config: an hour's info is looked for 20 minutes before its end, a short one after 10 *)
Example hour : update_at 600 1200 10000 13600 = 12400.
Proof. vm_compute. reflexivity. Qed.
Example short : update_at 600 1200 10000 10900 = 10600.
Proof. vm_compute. reflexivity. Qed.
Example hour_meets : 10000 + 600 <= 13600 - 1200 /\ 13600 <= max_u32.
Proof. vm_compute. split; discriminate. Qed.

(** A finding: [is_stale] never goes back to false, though the peer is resolved afterwards. *)
Theorem stale_forever : forall h o i, let s := run init h in i < next s -> stale s i = true -> stale (step s o) i = true.
Proof.
  intros h o i s LT F. assert (M : forall p k, stale (make s p k) i = true).
  { intros p k. cbn [make stale]. rewrite put_case. destruct (N.eqb_spec i (next s)) as [->|]; [destruct (N.lt_irrefl _ LT)|exact F]. }
  destruct o as [p known|j|j|p|j|j|w j|w]; cbn [step].
  - destruct (tasks s p) as [k|]; [destruct (Nat.ltb 0 (strong s k))|]; [exact F|apply M|apply M].
  - destruct (Nat.ltb 0 (strong s j)); exact F.
  - destruct (strong s j); exact F.
  - destruct (mem p (drops s)); exact F.
  - destruct (prog s j); exact F.
  - cbn [stale]. rewrite put_case. destruct (i =? j); [reflexivity|exact F].
  - destruct (j <? next s); exact F.
  - destruct (waiters s w) as [[[k g] [|]]|]; [destruct (gen s k =? g)|destruct (prog s k)|]; exact F.
Qed.
Example stale_and_resolved : let s := run init [OInsert 7 false; OStale 0; OTask 0; OTask 0; OTask 0] in
  stale s 0 = true /\ prog s 0 = Told.
Proof. vm_compute. auto. Qed.
