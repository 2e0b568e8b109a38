(** The theorems of BcPeek on the run of BcExample. *)
From Verif Require Import BcModel BcSpec BcBasics BcInv BcStore BcTake BcThms BcOwn BcRange BcExample BcPeek.
Local Open Scope N_scope.
Theorem ex1_peek : snd (exec ex1_k (OPeek 11)) = RPeek (Some (mc 11 1, [sh 21 1], None)) /\
  snd (exec ex1_k (OPeek 99)) = RPeek None /\ snd (exec ex1_k (OPop 99)) = RErr.
Proof. vm_compute. auto. Qed.
Theorem ex1_own : own_last ex1_k = Some (mc 11 1) /\ own_last (fst (exec ex1_k (OPop 11))) = Some (mc 11 1) /\
  own_last (fst (exec ex1_k (OPop 12))) = None.
Proof. vm_compute. auto. Qed.
Definition own22 : cand := mkcand (sh 22 1) [sh 21 1] 12 77 (1, 1).
Theorem ex1_offers : exists x, snd (exec ex1_k (OCollated own22 [] None)) = RStored x /\ x_mismatch x = false /\ x_both x = true /\
  b_shard (c_id own22) <> 0.
Proof. eexists. split; [vm_compute; reflexivity|]. split; [reflexivity|]. split; [reflexivity|discriminate]. Qed.
