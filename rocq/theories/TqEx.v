(** C95: concrete cases of the periodic tasks of overlays. *)
From Coq Require Import List NArith Bool.
From Verif Require Import TqModel TqThms.
Import ListNotations.
Local Open Scope N_scope.

(** clean histories, checked *)
Lemma reach_run h : forall s, reach s -> (forall n, clean (run s (firstn n h)) (nth n h (OTick 0))) -> reach (run s h).
Proof.
  induction h as [|o h IH]; intros s R C; [exact R|]. apply IH; [apply RS; [exact R|exact (C 0%nat)]|]. intros n. exact (C (S n)).
Qed.
Definition busy := run init [ORebuild [7; 8]; OSpawn 7; OSpawn 8; OSpawn 7].
Example busy_reach : reach busy.
Proof.
  unfold busy. apply reach_run; [apply R0|]. intros [|[|[|[|[|n]]]]]; cbn; try exact Logic.I.
  - intros _ t x X. discriminate.
  - intros _ t x. unfold put. destruct (t =? 0); discriminate.
  - discriminate.
Qed.
Example busy_is : handle busy 7 = Some (0, true) /\ handle busy 8 = Some (1, false) /\ tasks busy 0 = Some (7, Running) /\ tasks busy 1 = Some (8, Running).
Proof. vm_compute. auto. Qed.
(** the one noted runs again, the other one waits for its interval *)
Example again : out (run busy [OEnd 0; OEnd 1]) (OJoin 0) = Some 7 /\ out (run busy [OEnd 0; OEnd 1]) (OJoin 1) = None.
Proof. vm_compute. auto. Qed.
(** a removed one is aborted, and the other one stays *)
Example dropped : tasks (run busy [ORebuild [8; 9]]) 0 = Some (7, Aborting) /\ tasks (run busy [ORebuild [8; 9]]) 1 = Some (8, Running) /\
  handle (run busy [ORebuild [8; 9]]) 7 = None /\ ids (run busy [ORebuild [8; 9]]) = [8; 9].
Proof. vm_compute. auto. Qed.
(** it can still end by itself, which is passed over *)
Example late : out (run busy [ORebuild [8]; OEnd 0]) (OJoin 0) = None /\ tasks (run busy [ORebuild [8]; OEnd 0; OJoin 0]) 0 = None.
Proof. vm_compute. auto. Qed.

(** A finding: an overlay is removed after its task ended, and added again before that end is seen ([next] looks at
    intervals first, and the interval of a new overlay ticks at once).  The end of the old task then drops the handle of
    the new one, so that two tasks of the overlay run at once; *)
Definition readded := run init [ORebuild [7]; OSpawn 7; OEnd 0; ORebuild []; ORebuild [7]; OSpawn 7; OJoin 0; OSpawn 7].
Example two_at_once : tasks readded 1 = Some (7, Running) /\ tasks readded 2 = Some (7, Running).
Proof. vm_compute. auto. Qed.
(** of which one goes on when the overlay is removed. *)
Example left_over : tasks (run readded [ORebuild []]) 1 = Some (7, Running) /\ ids (run readded [ORebuild []]) = [].
Proof. vm_compute. auto. Qed.
(** or the note of the new one is taken for the old one's, and the overlay runs again at once beside the new task *)
Example note_stolen : out (run init [ORebuild [7]; OSpawn 7; OEnd 0; ORebuild []; ORebuild [7]; OSpawn 7; OSpawn 7]) (OJoin 0) = Some 7.
Proof. vm_compute. auto. Qed.
(** A finding: a forced run of an overlay which is not in the list any more is never cancelled. *)
Example forced : let s := run init [ORebuild [7]; ORebuild []; OSpawn 7; ORebuild []] in tasks s 0 = Some (7, Running) /\ ids s = [].
Proof. vm_compute. auto. Qed.
