(** What the limiter answers to a key is what a limiter would answer that serves this key alone and
    forgets nothing. *)
From Coq Require Import List Bool NArith Lia Sorted.
From Coq Require Import ZArith ZifyN ZifyNat ZifyBool.
From Verif Require Import TbBucket GcModel GcBucket.
Import ListNotations.
Local Open Scope N_scope.

(** ** What is said *)

(** a call of one key: class and time *)
Definition kcall := (class * N)%type.
Definition calls_of (k : key) (l : list call) : list kcall := map (fun c => (snd (fst c), snd c)) (filter (fun c => fst (fst c) =? k) l).
Fixpoint answers_of {A} (k : key) (l : list call) (v : list A) : list A :=
  match l, v with
  | c :: l, a :: v => if fst (fst c) =? k then a :: answers_of k l v else answers_of k l v
  | _, _ => []
  end.
Definition times_of (l : list call) : list N := map snd l.
(** the clock does not go back *)
Definition in_order (t0 : N) (l : list call) : Prop := sorted (t0 :: times_of l).
(** an entry lives longer than what it says *)
Definition lasting (lim : class -> traffic) (c : config) : Prop := g_cooldown c <= g_ttl (normalize c) /\ forall cl, burst (lim cl) * interval_of (lim cl) <= g_ttl (normalize c).
Definition limits_ok (lim : class -> traffic) : Prop := forall cl, 0 < burst (lim cl).

(** the answers to one key of a limiter that forgets nothing *)
Fixpoint peer_run (lim : class -> traffic) (c : config) (p : peer) (l : list kcall) : list verdict :=
  match l with [] => [] | (cl, now) :: r => let '(v, p) := peer_check lim c cl now p in v :: peer_run lim c p r end.
Fixpoint peer_after (lim : class -> traffic) (c : config) (p : peer) (l : list kcall) : peer :=
  match l with [] => p | (cl, now) :: r => peer_after lim c (snd (peer_check lim c cl now p)) r end.
Definition alone_run (lim : class -> traffic) (c : config) (l : list kcall) : list verdict := peer_run lim (normalize c) (peer_new 0) l.

(** ** Basics *)

Lemma check_run_len lim c l : forall x, length (check_run lim c x l) = length l.
Proof. induction l as [|[[k cl] now] l IH]; intros x; cbn [check_run length]; [reflexivity|]. destruct (check lim c k cl now x) as [v x']. cbn [length]. rewrite IH. reflexivity. Qed.
Lemma peer_run_len lim c l : forall p, length (peer_run lim c p l) = length l.
Proof. induction l as [|[cl now] l IH]; intros p; cbn [peer_run length]; [reflexivity|]. destruct (peer_check lim c cl now p) as [v p']. cbn [length]. rewrite IH. reflexivity. Qed.
Lemma peer_run_app lim c a b : forall p, peer_run lim c p (a ++ b) = peer_run lim c p a ++ peer_run lim c (peer_after lim c p a) b.
Proof. induction a as [|[cl now] a IH]; intros p; cbn [app peer_run peer_after]; [reflexivity|]. destruct (peer_check lim c cl now p) as [v p']. cbn [snd app]. rewrite IH. reflexivity. Qed.
Lemma peer_after_app lim c a b : forall p, peer_after lim c p (a ++ b) = peer_after lim c (peer_after lim c p a) b.
Proof. induction a as [|[cl now] a IH]; intros p; cbn [app peer_after]; [reflexivity|]. apply IH. Qed.

(** ** Two states that answer the same *)

Definition like (now a b : N) : Prop := a = b \/ (a <= now /\ b <= now).
Definition fresh (now : N) (p : peer) : Prop := (forall cl, p_tat p cl <= now) /\ p_cooldown p <= now.
Definition alike (now : N) (p q : peer) : Prop :=
  (forall cl, like now (p_tat p cl) (p_tat q cl)) /\ like now (p_cooldown p) (p_cooldown q) /\ (p_rejects p = p_rejects q \/ (fresh now p /\ fresh now q)).
Lemma like_later now now' a b : now <= now' -> like now a b -> like now' a b.
Proof. unfold like. lia. Qed.
Lemma fresh_later now now' p : now <= now' -> fresh now p -> fresh now' p.
Proof. intros H (A & B). split; [|lia]. intros cl. specialize (A cl). lia. Qed.
Lemma alike_later now now' p q : now <= now' -> alike now p q -> alike now' p q.
Proof.
  intros H (A & B & C). split; [intros cl; apply (like_later now); auto|]. split; [apply (like_later now); auto|].
  destruct C as [C|(C & D)]; [left; exact C|right; split; apply (fresh_later now); auto].
Qed.

Lemma peer_check_alike lim c cl now p q : alike now p q -> fst (peer_check lim c cl now p) = fst (peer_check lim c cl now q) /\
  alike now (snd (peer_check lim c cl now p)) (snd (peer_check lim c cl now q)).
Proof.
  intros (A & B & C). unfold peer_check.
  assert (CD : (now <? p_cooldown p) = (now <? p_cooldown q)) by (unfold like in B; lia). rewrite <- CD.
  destruct (N.ltb_spec now (p_cooldown p)) as [L|L].
  - cbn [fst snd]. assert (E : p_cooldown p = p_cooldown q) by (unfold like in B; lia). split; [rewrite E; reflexivity|].
    split; [exact A|]. split; [exact B|]. cbn [p_rejects]. destruct C as [C|((_ & C) & _)]; [left; exact C|lia].
  - destruct (A cl) as [E|(E1 & E2)].
    + rewrite <- E. unfold try_claim. destruct (N.ltb_spec now (p_tat p cl - tolerance_of (lim cl))) as [X|X].
      * assert (R : p_rejects p = p_rejects q) by (destruct C as [C|((C & _) & _)]; [exact C|specialize (C cl); lia]). rewrite <- R.
        destruct (g_rejects c <=? N.min (p_rejects p + 1) 255); cbn [fst snd p_cooldown p_tat p_rejects].
        -- assert (Y : (if now <? N.max (p_cooldown p) (sat_add now (g_cooldown c)) then N.max (p_cooldown p) (sat_add now (g_cooldown c)) - now else p_tat p cl - tolerance_of (lim cl) - now)
             = (if now <? N.max (p_cooldown q) (sat_add now (g_cooldown c)) then N.max (p_cooldown q) (sat_add now (g_cooldown c)) - now else p_tat p cl - tolerance_of (lim cl) - now)).
           { clear - B. unfold like in B. destruct (N.ltb_spec now (N.max (p_cooldown p) (sat_add now (g_cooldown c)))); destruct (N.ltb_spec now (N.max (p_cooldown q) (sat_add now (g_cooldown c)))); lia. }
           rewrite Y. split; [reflexivity|]. split; [exact A|]. split; [unfold like in *; cbn [p_cooldown]; lia|left; reflexivity].
        -- rewrite <- CD. rewrite (proj2 (N.ltb_ge _ _) L). split; [reflexivity|]. split; [exact A|]. split; [exact B|left; reflexivity].
      * cbn [fst snd]. split; [reflexivity|]. split; [|split; [exact B|left; reflexivity]].
        intros cl'. cbn [p_tat]. unfold upd. destruct (N.eqb_spec cl' cl); [left; reflexivity|apply A].
    + rewrite !claim_when by lia. cbn [fst snd]. split; [reflexivity|]. split; [|split; [exact B|left; reflexivity]].
      intros cl'. cbn [p_tat]. unfold upd. destruct (N.eqb_spec cl' cl); [|apply A]. left. f_equal. lia.
Qed.

(** ** How far a state reaches *)

Definition reach (lim : class -> traffic) (c : config) (p : peer) (at_ : N) : Prop :=
  (forall cl, p_tat p cl <= at_ + burst (lim cl) * interval_of (lim cl)) /\ p_cooldown p <= at_ + g_cooldown c.
Lemma reach_check lim c cl now p at_ : limits_ok lim -> at_ <= now -> reach lim c p at_ -> reach lim c (snd (peer_check lim c cl now p)) now.
Proof.
  intros LO H (R1 & R2). assert (R1' : forall cl', p_tat p cl' <= now + burst (lim cl') * interval_of (lim cl')) by (intros cl'; specialize (R1 cl'); lia).
  assert (R2' : p_cooldown p <= now + g_cooldown c) by lia. unfold peer_check. destruct (N.ltb_spec now (p_cooldown p)) as [L|L]; [split; assumption|].
  destruct (try_claim (lim cl) (p_tat p cl) now) as [after|tat] eqn:E.
  - destruct (g_rejects c <=? N.min (p_rejects p + 1) 255); cbn [snd]; split; cbn [p_tat p_cooldown]; try assumption. unfold sat_add. lia.
  - cbn [snd]. split; cbn [p_tat p_cooldown]; [|exact R2']. intros cl'. unfold upd. destruct (N.eqb_spec cl' cl) as [->|]; [|apply R1'].
    destruct (claim_ok _ _ _ _ E) as (A & ->). pose proof (tol_interval (lim cl) (LO cl)). unfold sat_add. lia.
Qed.
Lemma seen_check lim c cl now p : p_seen (snd (peer_check lim c cl now p)) = now.
Proof.
  unfold peer_check. destruct (now <? p_cooldown p); [reflexivity|]. destruct (try_claim _ _ _); [|reflexivity].
  destruct (g_rejects c <=? N.min (p_rejects p + 1) 255); reflexivity.
Qed.

(** ** The limiter and the key *)

Definition held (lim : class -> traffic) (c : config) (now : N) (e : option peer) (q : peer) : Prop :=
  match e with
  | None => fresh now q
  | Some p => p_seen p <= now /\ alike now p q /\ reach lim c q (p_seen p)
  end.
Lemma fresh_alike now p q : fresh now p -> fresh now q -> alike now p q.
Proof.
  intros (A & B) (A' & B'). split; [intros cl; right; specialize (A cl); specialize (A' cl); auto|]. split; [right; auto|right; split; split; assumption].
Qed.
Lemma new_fresh now : fresh now (peer_new now). Proof. split; [intros cl|]; cbn; lia. Qed.
Lemma held_later lim c now now' e q : now <= now' -> held lim c now e q -> held lim c now' e q.
Proof. intros H. destruct e as [p|]; cbn [held]; [intros (A & B & C); split; [lia|split; [apply (alike_later now); auto|exact C]]|apply fresh_later; exact H]. Qed.
Lemma expired_fresh lim c now p q : g_cooldown c <= g_ttl c -> (forall cl, burst (lim cl) * interval_of (lim cl) <= g_ttl c) -> reach lim c q (p_seen p) -> p_seen p <= now -> is_expired c now p = true -> fresh now q.
Proof. unfold is_expired. intros H1 H2 (R1 & R2) S E. split; [|lia]. intros cl. specialize (R1 cl). specialize (H2 cl). lia. Qed.

Lemma normalize_cooldown c : g_cooldown (normalize c) = g_cooldown c. Proof. reflexivity. Qed.
Lemma normalize_rejects c : 1 <= g_rejects (normalize c) <= 254. Proof. cbn. lia. Qed.

Section Follow.
Variables (lim : class -> traffic) (c : config) (LO : limits_ok lim) (T1 : g_cooldown c <= g_ttl c) (T2 : forall cl, burst (lim cl) * interval_of (lim cl) <= g_ttl c).

Lemma prune_held k now x q : held lim c now (l_states x k) q -> held lim c now (l_states (maybe_prune c now x) k) q.
Proof.
  unfold maybe_prune. destruct (now - l_last_prune x <? g_prune c); [auto|]. cbn [l_states]. destruct (l_states x k) as [p|]; [|auto].
  destruct (in_cooldown now p || negb (is_expired c now p)) eqn:E; [auto|]. cbn [held]. intros (A & B & C). apply orb_false_iff in E. destruct E as (_ & E). apply negb_false_iff in E.
  apply (expired_fresh lim c now p q T1 T2 C A E).
Qed.
Lemma get_alike k now x q : held lim c now (l_states x k) q -> alike now (get_peer c k now x) q.
Proof.
  unfold get_peer. destruct (l_states x k) as [p|]; cbn [held].
  - intros (A & B & C). destruct (is_expired c now p) eqn:E; [|exact B]. apply fresh_alike; [apply new_fresh|]. apply (expired_fresh lim c now p q T1 T2 C A E).
  - intros F. apply fresh_alike; [apply new_fresh|exact F].
Qed.
(** [q] is within reach of [now] *)
Definition near (now : N) (q : peer) : Prop := reach lim c q now.

Lemma follow k : forall l x q now0, held lim c now0 (l_states x k) q -> near now0 q -> sorted (now0 :: times_of l) ->
  answers_of k l (check_run lim c x l) = peer_run lim c q (calls_of k l).
Proof.
  induction l as [|[[k' cl] now] l IH]; intros x q now0 HE NE S; cbn [check_run answers_of]; [reflexivity|].
  assert (LE : now0 <= now) by (inversion S as [|? ? S1 S2]; subst; rewrite Forall_forall in S2; apply S2; left; reflexivity).
  assert (SR : sorted (now :: times_of l)) by (inversion S; assumption). clear S.
  pose proof (prune_held k now x q (held_later _ _ _ _ _ _ LE HE)) as HP. set (y := maybe_prune c now x) in *.
  unfold check. fold y. destruct (peer_check lim c cl now (get_peer c k' now y)) as [v p] eqn:EP. unfold calls_of. cbn [fst snd filter]. destruct (N.eqb_spec k' k) as [Ek|NE'].
  - subst k'. cbn [map fst snd peer_run]. destruct (peer_check_alike lim c cl now (get_peer c k now y) q (get_alike k now y q HP)) as (V & AL).
    assert (NW : near now q) by (destruct NE as (N1 & N2); split; [intros cl'; specialize (N1 cl')|]; lia).
    rewrite EP in V, AL. cbn [fst snd] in V, AL. assert (RC : reach lim c (snd (peer_check lim c cl now q)) now) by (apply (reach_check lim c cl now q now LO (N.le_refl _)); exact NW).
    assert (SE : p_seen p = now) by (rewrite <- (seen_check lim c cl now (get_peer c k now y)), EP; reflexivity).
    destruct (peer_check lim c cl now q) as [v' q']. cbn [fst snd] in V, AL, RC. subst v'. f_equal. apply (IH _ q' now); [|exact RC|exact SR].
    cbn [l_states]. unfold upd. rewrite N.eqb_refl. cbn [held]. rewrite SE. split; [lia|split; assumption].
  - apply (IH _ q now); [|destruct NE as (N1 & N2); split; [intros cl'; specialize (N1 cl')|]; lia|exact SR].
    cbn [l_states]. unfold upd. rewrite (proj2 (N.eqb_neq k k')) by congruence. exact HP.
Qed.
End Follow.

(** Removing the entries that expired, and using a new entry for one that expired, cannot be noticed,
    and neither can the calls of other keys. *)
Theorem answers_are_of_the_key lim c t0 l k : limits_ok lim -> lasting lim c -> in_order t0 l ->
  answers_of k l (limiter_run lim c t0 l) = alone_run lim c (calls_of k l).
Proof.
  intros LO (T1 & T2) S. unfold limiter_run, alone_run. apply (follow lim (normalize c) LO T1 T2 k l _ _ t0); [| |exact S].
  - cbn [limiter_new l_states held]. split; [intros cl|]; cbn; lia.
  - split; [intros cl|]; cbn; lia.
Qed.
Corollary keys_are_apart lim c t0 l t0' l' k : limits_ok lim -> lasting lim c -> in_order t0 l -> in_order t0' l' -> calls_of k l = calls_of k l' ->
  answers_of k l (limiter_run lim c t0 l) = answers_of k l' (limiter_run lim c t0' l').
Proof. intros LO LA S S' E. rewrite !answers_are_of_the_key by assumption. rewrite E. reflexivity. Qed.
