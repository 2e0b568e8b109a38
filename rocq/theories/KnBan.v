(** The newest info of a peer, bans, affinity; and what does not hold. *)
From Coq Require Import List Bool NArith Lia PeanoNat.
From Coq Require Import ZifyN ZifyNat ZifyBool.
From Verif Require Import KnModel KnSpec KnRefine KnThms.
Import ListNotations.
Local Open Scope N_scope.

(** how what is known of a peer may change *)
Definition trans (x y : peer_st) : Prop :=
  x = y \/ match x, y with
           | Nobody _, Live _ false | Nobody _, Forever => True
           | Live i b, Live j c => i_created i <= i_created j /\ (b = true -> j = i /\ c = true)
           | Live _ b, Nobody b' => b' = b
           | _, _ => False
           end.
Lemma trans_set t q x p : trans (p_st t q) x -> trans (p_st t p) (p_st (set_st q x t) p).
Proof. intros T. cbn [set_st p_st]. unfold upd. destruct (N.eqb_spec p q) as [F|F]; [subst p; exact T|left; reflexivity]. Qed.
Lemma trans_step t o p : trans (p_st t p) (p_st (snd (spec_step t o)) p).
Proof.
  assert (GN : forall q aff u, p_st (snd (give_new q aff u)) = p_st u) by (intros q [|] u; reflexivity). assert (ID : trans (p_st t p) (p_st t p)) by (left; reflexivity).
  destruct o as [strict i aff|q aff|q|h|h i|h|h|h|h|]; cbn [spec_step].
  - destruct (p_st t (i_peer i)) as [lf| |j [|]] eqn:E; cbn [snd]; rewrite ?GN; auto.
    + apply trans_set. rewrite E. right. exact I.
    + destruct (N.ltb_spec (i_created i) (i_created j)) as [L|L]; [destruct strict; cbn [snd]; rewrite ?GN; auto|]. rewrite GN. destruct (i_created j <? i_created i); [|auto]. apply trans_set. rewrite E. right. split; [exact L|discriminate].
  - destruct (p_st t q) as [lf| |j b] eqn:E; cbn [snd]; auto. destruct (b && aff); cbn [snd]; rewrite ?GN; auto.
  - cbn [snd]. apply trans_set. destruct (p_st t q) as [lf| |j b]; [right; exact I|left; reflexivity|]. right. split; [lia|]. intros ->. auto.
  - destruct (hfind h (p_handles t)) as [[q g]|]; [|auto]. destruct (p_st t q) as [lf| |j b] eqn:E; cbn [snd]; auto. apply trans_set. rewrite E. right. split; [lia|]. intros ->. auto.
  - destruct (hfind h (p_handles t)) as [[q g]|]; [|auto]. destruct (p_st t q) as [lf| |j [|]] eqn:E; cbn [snd]; auto. destruct (N.ltb_spec (i_created i) (i_created j)) as [L|L]; cbn [snd]; auto.
    destruct (i_created j <? i_created i); [|auto]. apply trans_set. rewrite E. right. split; [exact L|discriminate].
  - destruct (hfind h (p_handles t)) as [[q [g|]]|]; cbn [snd p_st]; auto.
  - destruct (hfind h (p_handles t)) as [[q [g|]]|]; cbn [snd set_hs p_st]; auto.
  - destruct (hfind h (p_handles t)) as [[q g]|]; cbn [give snd p_st]; auto.
  - destruct (hfind h (p_handles t)) as [[q g]|]; cbn [snd]; auto. destruct (held q _); [cbn [set_hs p_st]; auto|]. apply (trans_set (set_hs (hrm h (p_handles t)) t)). cbn [set_hs p_st].
    destruct (p_st t q) as [lf| |j b]; [left; reflexivity|left; reflexivity|right; reflexivity].
  - auto.
Qed.

Section Seen.
Variables (l : list op) (G : good l).
Lemma seen_get p : k_get (after l) p = sp_get (sp_after l) p.
Proof. destruct (known_peers_refine l G) as (_ & KP & _). apply (KP p). Qed.
Lemma seen_banned p : k_banned (after l) p = sp_banned (sp_after l) p.
Proof. destruct (known_peers_refine l G) as (_ & KP & _). apply (KP p). Qed.
Lemma seen_affinity p : k_affinity (after l) p = sp_affinity (sp_after l) p.
Proof. destruct (known_peers_refine l G) as (_ & KP & _). apply (KP p). Qed.
End Seen.

(** *** The newest info of a peer *)

(** The info of an accepted call is taken if it is newer, or if nothing was known. *)
Theorem newest_info l o i : good (l ++ [o]) ->
  (exists strict aff h, o = OInsert strict i aff /\ fst (seq_step (after l) o) = RHandle h) \/
  (exists h x, o = OUpdate h i /\ h_info (after l) h = Some x /\ fst (seq_step (after l) o) = RUnit) ->
  k_get (after (l ++ [o])) (i_peer i) = Some (match k_get (after l) (i_peer i) with Some j => if i_created j <? i_created i then i else j | None => i end).
Proof.
  intros G CASES. pose proof (good_app _ _ G) as G1. rewrite (seen_get _ G), (seen_get _ G1), sp_after_snoc. pose proof (result_is l o G) as RES. destruct (at_good l G1) as (_ & W & _). set (t := sp_after l) in *.
  assert (GN : forall q aff u, p_st (snd (give_new q aff u)) = p_st u) by (intros q [|] u; reflexivity). unfold sp_get.
  destruct CASES as [(strict & aff & h & -> & H)|(h & x & -> & HX & H)].
  - rewrite RES in H. clear RES. cbn [spec_step] in *. destruct (p_st t (i_peer i)) as [lf| |j [|]] eqn:E; cbn [snd fst] in *; try discriminate.
    + rewrite GN. cbn [set_st p_st]. rewrite upd_same. reflexivity.
    + destruct (N.ltb_spec (i_created i) (i_created j)) as [L|L].
      * rewrite (proj2 (N.ltb_ge (i_created j) (i_created i))) by lia. destruct strict; [discriminate|]. rewrite GN, E. reflexivity.
      * rewrite GN. destruct (i_created j <? i_created i); [cbn [set_st p_st]; rewrite upd_same; reflexivity|rewrite E; reflexivity].
  - pose proof (good_last _ _ G) as SF. cbn [safe] in SF. fold t in SF. destruct (known_peers_refine l G1) as (_ & _ & KH). rewrite KH in HX. unfold sp_info in HX. rewrite RES in H. clear RES. cbn [spec_step] in *. fold t in HX.
    destruct (hfind h (p_handles t)) as [[p g]|] eqn:F; [|discriminate]. rewrite (SF p g eq_refl). destruct (wf_live t W _ _ _ (hfind_in _ _ _ _ F)) as (_ & j & b & E). rewrite E in *. destruct b; [discriminate H|].
    destruct (N.ltb_spec (i_created i) (i_created j)) as [L|L]; [discriminate H|]. cbn [snd]. destruct (i_created j <? i_created i); [cbn [set_st p_st]; rewrite upd_same; reflexivity|rewrite E; reflexivity].
Qed.
(** As long as a peer is known, what is known of it does not get older. *)
Theorem info_never_goes_back l l' p i : good (l ++ l') -> k_get (after l) p = Some i -> (forall m r, l' = m ++ r -> k_get (after (l ++ m)) p <> None) ->
  exists j, k_get (after (l ++ l')) p = Some j /\ i_created i <= i_created j.
Proof.
  revert l'. apply (rev_ind (fun l' => good (l ++ l') -> k_get (after l) p = Some i -> (forall m r, l' = m ++ r -> k_get (after (l ++ m)) p <> None) -> exists j, k_get (after (l ++ l')) p = Some j /\ i_created i <= i_created j)).
  - intros _ E _. rewrite app_nil_r. exists i. split; [exact E|lia].
  - intros o l' IH G E K. rewrite app_assoc in G. pose proof (good_app _ _ G) as G1. destruct (IH G1 E) as (j & EJ & LE); [intros m r ->; apply (K m (r ++ [o])); rewrite app_assoc; reflexivity|].
    specialize (K (l' ++ [o]) [] (eq_sym (app_nil_r _))). rewrite app_assoc in *. rewrite (seen_get _ G1) in EJ. rewrite (seen_get _ G) in *. rewrite sp_after_snoc in *. pose proof (trans_step (sp_after (l ++ l')) o p) as T. unfold sp_get in *.
    destruct (p_st (sp_after (l ++ l')) p) as [lf| |j' b]; try discriminate. inversion EJ; subst j'. destruct T as [T|T]; [rewrite <- T; eauto|].
    destruct (p_st (snd (spec_step (sp_after (l ++ l')) o)) p) as [lf| |k c]; try (elim K; reflexivity). exists k. split; [reflexivity|]. lia.
Qed.

(** *** Bans *)
Theorem ban_bans l p : good (l ++ [OBan p]) -> k_banned (after (l ++ [OBan p])) p = true.
Proof.
  intros G. rewrite (seen_banned _ G), sp_after_snoc. cbn [spec_step snd]. unfold sp_banned. cbn [set_st p_st]. rewrite upd_same. destruct (p_st (sp_after l) p); reflexivity.
Qed.
(** Of a banned peer no info is taken and no affinity can be asked for. *)
Theorem banned_is_refused l p o : good (l ++ [o]) -> k_banned (after l) p = true ->
  match o with
  | OInsert _ i _ => i_peer i = p -> fst (seq_step (after l) o) = RBanned
  | OMake q true => q = p -> fst (seq_step (after l) o) = RNone
  | OUpdate h i => i_peer i = p -> h_info (after l) h <> None -> fst (seq_step (after l) o) = RBanned
  | _ => True
  end.
Proof.
  intros G B. pose proof (good_app _ _ G) as G1. rewrite (seen_banned _ G1) in B. pose proof (result_is l o G) as RES. pose proof (good_last _ _ G) as SF. destruct (at_good l G1) as (_ & W & _). set (t := sp_after l) in *. unfold sp_banned in B.
  destruct o as [strict i aff|q [|]|q|h|h i|h|h|h|h|]; try exact I.
  - intros E. rewrite RES. cbn [spec_step]. rewrite E. destruct (p_st t p) as [lf| |j [|]]; try discriminate; reflexivity.
  - intros ->. rewrite RES. cbn [spec_step]. destruct (p_st t p) as [lf| |j [|]]; try discriminate; reflexivity.
  - intros E HI. destruct (known_peers_refine l G1) as (_ & _ & KH). rewrite KH in HI. rewrite RES. cbn [spec_step safe] in *. fold t in HI. unfold sp_info in HI. destruct (hfind h (p_handles t)) as [[q g]|] eqn:F; [|elim HI; reflexivity].
    rewrite <- (SF q g eq_refl) in *. rewrite E. destruct (p_st t p) as [lf| |j [|]] eqn:E'; try discriminate; [|reflexivity].
    destruct (wf_live t W _ _ _ (hfind_in _ _ _ _ F)) as (_ & j & b & F'). rewrite E, E' in F'. discriminate.
Qed.
(** A peer that is banned while nobody has a handle of it is banned for good. *)
Theorem banned_for_good l l' p : good (l ++ l') -> k_banned (after l) p = true -> k_get (after l) p = None -> k_banned (after (l ++ l')) p = true /\ k_get (after (l ++ l')) p = None.
Proof.
  intros G B N. assert (F : p_st (sp_after (l ++ l')) p = Forever).
  { revert G. pattern l'. apply rev_ind; clear l'.
    - intros G. rewrite app_nil_r in *. rewrite (seen_banned _ G) in B. rewrite (seen_get _ G) in N. unfold sp_banned, sp_get in *. destruct (p_st (sp_after l) p); congruence.
    - intros o l' IH G. rewrite app_assoc in *. pose proof (good_app _ _ G) as G1. specialize (IH G1). rewrite sp_after_snoc. pose proof (trans_step (sp_after (l ++ l')) o p) as T. rewrite IH in T. destruct T as [T|[]]. symmetry. exact T. }
  rewrite (seen_banned _ G), (seen_get _ G). unfold sp_banned, sp_get. rewrite F. auto.
Qed.
(** A ban of a known peer lasts as long as it is known, with the info it had. *)
Theorem ban_while_known l l' p i : good (l ++ l') -> k_banned (after l) p = true -> k_get (after l) p = Some i -> (forall m r, l' = m ++ r -> k_get (after (l ++ m)) p <> None) ->
  k_banned (after (l ++ l')) p = true /\ k_get (after (l ++ l')) p = Some i /\ k_affinity (after (l ++ l')) p = Some Never.
Proof.
  intros G B E K. assert (F : p_st (sp_after (l ++ l')) p = Live i true).
  { revert G K. pattern l'. apply rev_ind; clear l'.
    - intros G _. rewrite app_nil_r in *. rewrite (seen_banned _ G) in B. rewrite (seen_get _ G) in E. unfold sp_banned, sp_get in *. destruct (p_st (sp_after l) p); congruence.
    - intros o l' IH G K. rewrite app_assoc in G. pose proof (good_app _ _ G) as G1. specialize (IH G1). specialize (K (l' ++ [o]) []) as K1. rewrite app_nil_r in K1. specialize (K1 eq_refl). rewrite app_assoc in *. rewrite (seen_get _ G) in K1. rewrite sp_after_snoc in *.
      pose proof (trans_step (sp_after (l ++ l')) o p) as T. rewrite IH in T by (intros m r ->; apply (K m (r ++ [o])); rewrite app_assoc; reflexivity). unfold sp_get in K1.
      destruct T as [T|T]; [auto|]. destruct (p_st (snd (spec_step (sp_after (l ++ l')) o)) p) as [lf| |j c]; try (elim K1; reflexivity). destruct T as (_ & T). destruct (T eq_refl) as (-> & ->). reflexivity. }
  rewrite (seen_banned _ G), (seen_get _ G), (seen_affinity _ G). unfold sp_banned, sp_get, sp_affinity. rewrite F. auto.
Qed.

(** *** A peer is wanted exactly if it is not banned and some handle of it has an affinity: one that refuses to get another. *)
Theorem high_if_wanted l p : good l ->
  (k_affinity (after l) p = Some High <->
   k_banned (after l) p = false /\ exists h i b a, h_info (after l) h = Some (i, b, a) /\ i_peer i = p /\ fst (seq_step (after l) (OInc h)) = RBool false).
Proof.
  intros G. rewrite (seen_affinity _ G), (seen_banned _ G). destruct (known_peers_refine l G) as (_ & _ & KH). destruct (at_good l G) as (RR & W & _). unfold sp_affinity.
  assert (INC : forall h, fst (seq_step (after l) (OInc h)) = fst (spec_step (sp_after l) (OInc h))) by (intros h; apply step_refines; auto; [exact I|apply good_wnext; exact G]).
  split.
  - intros H. destruct (p_st (sp_after l) p) as [lf| |i [|]] eqn:E; try discriminate. destruct (wanted p (p_handles (sp_after l))) eqn:WA; [|discriminate]. unfold sp_banned. rewrite E. split; [reflexivity|].
    apply wanted_in in WA. destruct WA as (h & w & IN). pose proof (in_hfind _ _ _ _ (wf_ids _ W) IN) as F. exists h, i, false, High. split; [|split; [exact (proj1 (wf_held _ W _ _ _ E))|]].
    + rewrite KH. unfold sp_info. rewrite F. unfold sp_get, sp_affinity, sp_banned. rewrite E. rewrite (proj2 (wanted_in p _)); [reflexivity|eauto].
    + rewrite INC. cbn [spec_step]. rewrite F. reflexivity.
  - intros (NB & h & i & b & a & HI & IP & IN). rewrite INC in IN. cbn [spec_step] in IN. rewrite KH in HI. unfold sp_info in HI. destruct (hfind h (p_handles (sp_after l))) as [[q [w|]]|] eqn:F; try discriminate.
    destruct (wf_live _ W _ _ _ (hfind_in _ _ _ _ F)) as (_ & j & c & E). unfold sp_get in HI. rewrite E in HI. destruct (sp_affinity (sp_after l) q); [|discriminate]. inversion HI; subst j. destruct (wf_held _ W _ _ _ E) as (IQ & _). subst q. rewrite IP in *.
    unfold sp_banned in NB. rewrite E in NB. subst c. rewrite E. rewrite (proj2 (wanted_in p _)); [reflexivity|]. exists h, w. exact (hfind_in _ _ _ _ F).
Qed.

(** ** What does not hold *)

(** The ban of a peer that was known is forgotten with its last handle (the entry stays, with a dead reference; a comment, 1494, says that banned peers are not removed): a new info is taken and has a handle. *)
Example ban_is_forgotten : let l := [OInsert true (Info 7 1 0) false; OBan 7] in
  good (l ++ [ODrop 0; OInsert true (Info 7 2 0) false]) /\ k_banned (after l) 7 = true /\ k_banned (after (l ++ [ODrop 0])) 7 = false /\ k_contains (after (l ++ [ODrop 0])) 7 = true /\
  fst (seq_step (after (l ++ [ODrop 0])) (OInsert true (Info 7 2 0) false)) = RHandle 1.
Proof. vm_compute. repeat split; intros; congruence. Qed.
(** A handle without affinity is given for a banned peer, although [insert] refuses. *)
Example banned_has_a_handle : let l := [OInsert true (Info 7 1 0) false; OBan 7] in
  good (l ++ [OMake 7 false]) /\ fst (seq_step (after l) (OMake 7 false)) = RHandle 1 /\ fst (seq_step (after l) (OInsert true (Info 7 2 0) false)) = RBanned.
Proof. vm_compute. repeat split; intros; congruence. Qed.
(** An insert with affinity that is refused as outdated leaves its affinity: the peer is wanted, and no handle has an affinity; it stays so when a handle gets one and gives it back. *)
Example affinity_leaks : let l := [OInsert true (Info 7 5 0) false; OInsert true (Info 7 4 0) true] in
  fst (seq_exec new l) = [RHandle 0; ROutdated] /\ k_affinity (after l) 7 = Some High /\ fst (seq_step (after l) (ODec 0)) = RBool false /\ k_affinity (after (l ++ [OInc 0; ODec 0])) 7 = Some High /\
  ~ good l.
Proof.
  split; [vm_compute; reflexivity|]. split; [vm_compute; reflexivity|]. split; [vm_compute; reflexivity|]. split; [vm_compute; reflexivity|].
  intros (S & _). cbn [all_safe] in S. destruct S as (_ & S & _). specialize (S (Info 7 5 0) false). vm_compute in S. apply S; reflexivity.
Qed.
(** Two clones that give the affinity back each take one away: the counter wraps, and the peer is banned by nobody (a debug build panics). *)
Example clones_ban : let l := [OInsert true (Info 7 1 0) true; OClone 0; ODec 0; ODec 1] in
  fst (seq_exec new l) = [RHandle 0; RHandle 1; RBool true; RBool true] /\ k_banned (after l) 7 = true /\ k_affinity (after l) 7 = Some Never.
Proof. vm_compute. auto. Qed.
(** A handle is dropped, and before its entry is removed the peer is inserted again: the removal takes the new entry. The peer is not known though there is a handle of it, an older info is taken after a newer one, and a ban does not reach the first handle. *)
Example removed_under_a_handle : let l := [OInsert true (Info 7 1 0) false; ODrop 0; OInsert true (Info 7 3 0) false; OFinish] in
  let s := snd (exec new l) in let s2 := snd (exec new (l ++ [OInsert true (Info 7 2 0) false; OBan 7])) in
  k_contains s 7 = false /\ h_info s 1 = Some (Info 7 3 0, false, Allowed) /\
  k_get s2 7 = Some (Info 7 2 0) /\ k_banned s2 7 = true /\ h_info s2 1 = Some (Info 7 3 0, false, Allowed).
Proof. vm_compute. auto. Qed.

(** ** The hypotheses are met *)
Definition some_history : list op :=
  [OInsert true (Info 7 1 0) true; OInsert false (Info 7 3 1) false; OInsert true (Info 7 2 0) false; OClone 0; OInc 1; OUpdate 1 (Info 7 4 0); ODec 1; ODrop 0; OMake 7 true; OBan 8; OInsert true (Info 8 1 0) false;
   OInsert true (Info 9 1 0) false; OHBan 4; OUpdate 4 (Info 9 2 0); ODrop 4; ODrop 2; ODrop 3; ODrop 1].
Example some_history_good : good some_history.
Proof. vm_compute. repeat split; intros; try congruence. match goal with H : Some (7, Some 1) = Some (_, Some ?x) |- _ => assert (x = 1) by congruence; subst x end. reflexivity. Qed.
Example some_history_does : fst (seq_exec new some_history) =
  [RHandle 0; RHandle 1; ROutdated; RHandle 2; RBool true; RUnit; RBool true; RUnit; RHandle 3; RUnit; RBanned; RHandle 4; RBool true; RBanned; RUnit; RUnit; RUnit; RUnit] /\
  k_affinity (after (firstn 9 some_history)) 7 = Some High /\ k_get (after (firstn 9 some_history)) 7 = Some (Info 7 4 0) /\ k_contains (after some_history) 7 = false /\ k_banned (after some_history) 8 = true /\
  h_info (after (firstn 5 some_history)) 2 = Some (Info 7 3 1, false, High).
Proof. vm_compute. auto 10. Qed.
