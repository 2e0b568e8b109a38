(* C66: the states GC keeps what is needed and removes the rest. *)
From Coq Require Import NArith ZArith List Bool Lia Sorting.Permutation.
From Coq Require Import ZifyN ZifyNat ZifyBool.
From Verif Require Import AMap TrkModel TrkThms SgcModel.
Import ListNotations.
Open Scope N_scope.

(* ---- specification ---- *)
(* x is b or an ancestor of b *)
Inductive desc (w : world) : bid -> bid -> Prop :=
| d_refl b : desc w b b
| d_prev b x : b_seq b <> 0 -> desc w (w_prev w b) x -> desc w b x.
(* u: the blocks after p up to b *)
Inductive upto (w : world) (p : bid) : bid -> list bid -> Prop :=
| u_nil : upto w p p []
| u_snoc b u : b_seq b <> 0 -> upto w p (w_prev w b) u -> upto w p b (u ++ [b]).
Definition stored_at (t : stable) (b : bid) : Prop := exists r, aget bid_eqb b t = Some r.
(* what block contents satisfy *)
Record world_ok (w : world) : Prop := {
  wk_prev : forall b, b_seq b <> 0 -> sh (w_prev w b) = sh b /\ b_seq (w_prev w b) + 1 = b_seq b;
  wk_tops : forall e, NoDup (map sh (w_tops w e)) /\ forall t, In t (w_tops w e) -> is_mc (sh t) = false;
  wk_minref : forall b, w_minref w b <= b_seq b;
  wk_step : 0 < w_step w
}.
(* every direct state of T's shard at or below T is T or an ancestor of T *)
Definition no_fork (w : world) (t : stable) (T : bid) : Prop :=
  forall x, stored_at t x -> sh x = sh T -> b_seq x <= b_seq T -> desc w T x.
(* b is not older than the edge block e of a GC run *)
Definition not_older (w : world) (t : stable) (e b : bid) : Prop :=
  if is_mc (sh b) then b_seq e <= b_seq b
  else exists T, In T (w_tops w e) /\ desc w b T /\ no_fork w t T.
(* the block's data and the link to the previous block are there *)
Definition linked (h : hmap) (b : bid) : Prop :=
  exists x, aget bid_eqb b h = Some x /\ h_data x = true /\ h_prev x = true.

(* ---- basics ---- *)
Lemma bid_eqb_spec a b : reflect (a = b) (bid_eqb a b).
Proof.
  destruct a as [a1 a2 a3 a4], b as [b1 b2 b3 b4]. unfold bid_eqb. cbn.
  destruct (N.eqb_spec a1 b1); [|constructor; congruence]. destruct (N.eqb_spec a2 b2); [|constructor; congruence].
  destruct (N.eqb_spec a3 b3); [|constructor; congruence]. destruct (N.eqb_spec a4 b4); constructor; congruence.
Qed.
Lemma sh_eqb_spec a b : reflect (a = b) (sh_eqb a b).
Proof.
  destruct a as [a1 a2], b as [b1 b2]. unfold sh_eqb. cbn [fst snd].
  destruct (N.eqb_spec a1 b1); [|constructor; congruence]. destruct (N.eqb_spec a2 b2); constructor; congruence.
Qed.
Lemma bset {V : Type} k v (m : list (bid * V)) k' : aget bid_eqb k' (aset bid_eqb k v m) = if bid_eqb k' k then Some v else aget bid_eqb k' m.
Proof. apply (aget_aset bid_eqb bid_eqb_spec). Qed.
Lemma bdel {V : Type} k (m : list (bid * V)) k' : aget bid_eqb k' (adel bid_eqb k m) = if bid_eqb k' k then None else aget bid_eqb k' m.
Proof. apply (aget_adel bid_eqb bid_eqb_spec). Qed.
Lemma stored_set t b r x : stored_at (aset bid_eqb b r t) x <-> x = b \/ stored_at t x.
Proof.
  unfold stored_at. rewrite bset. destruct (bid_eqb_spec x b) as [Ex|Ex]; split; intros H.
  - now left.
  - now exists r.
  - now right.
  - destruct H as [H|H]; [contradiction|exact H].
Qed.
Lemma stored_in t b : stored_at t b -> In b (map fst t).
Proof.
  intros (r & H). induction t as [|[k v] t IH]; cbn [aget] in H; [discriminate|]. cbn [map fst].
  destruct (bid_eqb_spec b k) as [->|]; [now left|right; auto].
Qed.
Lemma in_stored t b : In b (map fst t) -> stored_at t b.
Proof.
  unfold stored_at. induction t as [|[k v] t IH]; cbn [aget map fst]; [intros []|]. intros H.
  destruct (bid_eqb_spec b k) as [->|N]; [now exists v|]. destruct H as [->|H]; [contradiction|auto].
Qed.
Lemma desc_sh w (K : world_ok w) b x : desc w b x -> sh x = sh b /\ b_seq x <= b_seq b.
Proof.
  intros H. induction H as [b|b x NZ H [A B]]; [split; [reflexivity|lia]|].
  destruct (wk_prev w K b NZ) as [C D]. split; [congruence|lia].
Qed.
Lemma desc_trans w a b c : desc w a b -> desc w b c -> desc w a c.
Proof. intros H. induction H as [b|a b NZ H IH]; [tauto|]. intros Q. apply d_prev; [exact NZ|auto]. Qed.

(* a walk ends at or after every stored ancestor *)
Lemma walk_stops w (K : world_ok w) h t q : stored_at t q -> forall n b, desc w b q ->
  forall p r u, walk w n t h b = Some (p, r, u) -> desc w b p /\ desc w p q.
Proof.
  intros Hq n. induction n as [|n IH]; intros b D p r u E; cbn [walk] in E; [discriminate|].
  destruct (aget bid_eqb b t) as [r0|] eqn:G.
  - injection E as <- _ _. split; [constructor|exact D].
  - destruct (aget bid_eqb b h) as [x|]; [|discriminate]. destruct (h_data x && h_prev x); [|discriminate].
    destruct (walk w n t h (w_prev w b)) as [[[p' r'] u']|] eqn:W; [|discriminate]. injection E as -> _ _.
    inversion D as [b0|b0 q0 NZ D']; subst.
    + destruct Hq as (r1 & Hq). congruence.
    + destruct (IH _ D' _ _ _ W) as [A B]. split; [apply d_prev; assumption|exact B].
Qed.
(* a smaller table with the same pivot gives the same result *)
Lemma walk_sub w h t t' : (forall x r, aget bid_eqb x t' = Some r -> aget bid_eqb x t = Some r) ->
  forall n b p r u, walk w n t h b = Some (p, r, u) -> stored_at t' p -> walk w n t' h b = Some (p, r, u).
Proof.
  intros SUB n. induction n as [|n IH]; intros b p r u E Hp; cbn [walk] in *; [discriminate|].
  destruct (aget bid_eqb b t) as [r0|] eqn:G.
  - injection E as <- <- <-. destruct Hp as (r1 & Hp). rewrite Hp. apply SUB in Hp. congruence.
  - destruct (aget bid_eqb b t') as [r1|] eqn:G'; [apply SUB in G'; congruence|].
    destruct (aget bid_eqb b h) as [x|]; [|discriminate]. destruct (h_data x && h_prev x); [|discriminate].
    destruct (walk w n t h (w_prev w b)) as [[[p' r'] u']|] eqn:W; [|discriminate]. injection E as -> -> <-.
    now rewrite (IH _ _ _ _ W Hp).
Qed.
(* a stored ancestor near enough is found *)
Lemma walk_finds w (K : world_ok w) h t q : stored_at t q -> forall b u, upto w q b u ->
  (forall x, desc w b x -> desc w x q -> x <> q -> ~ stored_at t x -> linked h x) ->
  forall n, (length u < n)%nat -> exists p r u', walk w n t h b = Some (p, r, u') /\ aget bid_eqb p t = Some r /\
    upto w p b u' /\ (length u' <= length u)%nat.
Proof.
  intros (r0 & Hq) b u H. induction H as [|b u NZ H IH]; intros L n Hn.
  - destruct n as [|n]; [lia|]. cbn [walk]. rewrite Hq. exists q, r0, []. split; [reflexivity|]. split; [exact Hq|].
    split; [constructor|cbn; lia].
  - rewrite app_length in Hn. cbn [length] in Hn. destruct n as [|n]; [lia|]. cbn [walk].
    destruct (aget bid_eqb b t) as [r1|] eqn:G.
    + exists b, r1, []. split; [reflexivity|]. split; [exact G|]. split; [constructor|cbn [length]; lia].
    + assert (DQ : desc w b q).
      { apply d_prev; [exact NZ|]. clear - H. induction H; [constructor|]. apply d_prev; assumption. }
      assert (NB : ~ stored_at t b) by (intros (r1 & Q); congruence).
      destruct (L b) as (x & X1 & X2 & X3); [constructor|exact DQ|intros ->; congruence|exact NB|].
      rewrite X1, X2, X3. cbn [andb].
      destruct (IH) with (n := n) as (p & r & u' & A & B & C & D); [|lia|].
      * intros y Y1 Y2 Y3 Y4. apply L; [apply d_prev; assumption|exact Y2|exact Y3|exact Y4].
      * rewrite A. exists p, r, (u' ++ [b]). split; [reflexivity|]. split; [exact B|].
        split; [now apply u_snoc|]. rewrite !app_length. cbn [length]. lia.
Qed.

(* ---- the table lookups ---- *)
Lemma seek_prev_in bound t q : seek_prev bound t = Some q -> In q (map fst t) /\ kle q bound = true.
Proof.
  revert q. induction t as [|[k v] t IH]; intros q; cbn [seek_prev map fst]; [discriminate|].
  destruct (kle k bound) eqn:E.
  - destruct (seek_prev bound t) as [x|].
    + destruct (kle x k); intros [= <-]; [split; [now left|exact E]|]. destruct (IH x eq_refl) as [A B]. split; [now right|exact B].
    + intros [= <-]. split; [now left|exact E].
  - intros H. destruct (IH q H) as [A B]. split; [now right|exact B].
Qed.
Lemma kle_total a b : kle a b = true \/ kle b a = true.
Proof. unfold kle. destruct a as [a1 a2 a3 a4], b as [b1 b2 b3 b4]. cbn. lia. Qed.
Lemma kle_refl a : kle a a = true.
Proof. unfold kle. rewrite !N.eqb_refl, N.leb_refl. now rewrite !orb_true_r. Qed.
Lemma kle_trans a b c : kle a b = true -> kle b c = true -> kle a c = true.
Proof. unfold kle. destruct a as [a1 a2 a3 a4], b as [b1 b2 b3 b4], c as [c1 c2 c3 c4]. cbn. lia. Qed.
Lemma seek_prev_max bound t : match seek_prev bound t with
  | Some q => forall x, In x (map fst t) -> kle x bound = true -> kle x q = true
  | None => forall x, In x (map fst t) -> kle x bound = false end.
Proof.
  induction t as [|[k v] t IH]; cbn [seek_prev map fst]; [intros x []|].
  destruct (kle k bound) eqn:E.
  - destruct (seek_prev bound t) as [q|].
    + destruct (kle q k) eqn:Q; intros x [<-|Hx] B.
      * apply kle_refl.
      * apply (kle_trans x q k); [now apply IH|exact Q].
      * destruct (kle_total k q) as [R|R]; [exact R|congruence].
      * now apply IH.
    + intros x [<-|Hx] B; [apply kle_refl|]. rewrite IH in B by exact Hx. discriminate.
  - destruct (seek_prev bound t) as [q|].
    + intros x [<-|Hx] B; [congruence|now apply IH].
    + intros x [<-|Hx]; [exact E|now apply IH].
Qed.
Lemma find_mc_in s t q : find_mc s t = Some q -> In q (map fst t) /\ sh q = mc_shard /\ b_seq q = s.
Proof.
  revert q. induction t as [|[k v] t IH]; intros q; cbn [find_mc map fst]; [discriminate|].
  destruct (sh_eqb_spec (sh k) mc_shard) as [A|A]; cbn [andb].
  - destruct (N.eqb_spec (b_seq k) s) as [B|B].
    + destruct (find_mc s t) as [x|].
      * destruct (kle k x); intros [= <-]; [split; [now left|split; assumption]|]. destruct (IH x eq_refl) as (P & Q). split; [now right|exact Q].
      * intros [= <-]. split; [now left|split; assumption].
    + intros H. destruct (IH q H) as (P & Q). split; [now right|exact Q].
  - intros H. destruct (IH q H) as (P & Q). split; [now right|exact Q].
Qed.
Lemma kle_same_shard x b hh : sh x = sh b -> kle x (mkBid (b_wc b) (b_pfx b) (b_seq b) hh) = true -> b_seq x <= b_seq b.
Proof. unfold sh, kle. destruct x, b; cbn. intros [= -> ->]. lia. Qed.

Lemma shset k v (m : heights) k' : aget sh_eqb k' (aset sh_eqb k v m) = if sh_eqb k' k then Some v else aget sh_eqb k' m.
Proof. apply (aget_aset sh_eqb sh_eqb_spec). Qed.
Lemma shget_in (m : heights) k v : aget sh_eqb k m = Some v -> In (k, v) m.
Proof.
  induction m as [|[k2 v2] m IH]; cbn [aget]; [discriminate|]. destruct (sh_eqb_spec k k2) as [->|]; [intros [= ->]; now left|].
  intros H. right. auto.
Qed.
Lemma shin_get (m : heights) k v : NoDup (akeys m) -> In (k, v) m -> aget sh_eqb k m = Some v.
Proof.
  induction m as [|[k2 v2] m IH]; cbn [aget akeys map fst]; intros ND []; inversion ND; subst.
  - injection H as -> ->. destruct (sh_eqb_spec k k); [reflexivity|congruence].
  - destruct (sh_eqb_spec k k2) as [->|]; [|now apply IH]. exfalso. apply H2. apply in_map_iff. now exists (k2, v).
Qed.
Lemma shget_perm (a b : heights) k : NoDup (akeys a) -> Permutation a b -> aget sh_eqb k b = aget sh_eqb k a.
Proof.
  intros ND P. assert (ND' : NoDup (akeys b)) by (eapply Permutation_NoDup; [exact (Permutation_map fst P)|exact ND]).
  destruct (aget sh_eqb k a) as [v|] eqn:E.
  - apply shin_get; [exact ND'|]. apply (Permutation_in _ P). now apply shget_in.
  - destruct (aget sh_eqb k b) as [v|] eqn:E2; [|reflexivity]. apply shget_in in E2.
    apply (Permutation_in _ (Permutation_sym P)) in E2. apply shin_get in E2; [congruence|exact ND].
Qed.
Lemma gc_heights_nodup t tops : forall acc hs, NoDup (akeys acc) -> gc_heights t tops acc = Some hs -> NoDup (akeys hs).
Proof.
  induction tops as [|b tops IH]; intros acc hs ND E; cbn [gc_heights] in E; [now injection E as <-|].
  destruct (seek_prev _ t) as [q|]; [|discriminate]. destruct (sh_eqb (sh q) (sh b)); [|discriminate].
  refine (IH _ _ _ E). now apply (aset_nodup sh_eqb sh_eqb_spec).
Qed.
(* the heights: for every top block a direct state of its shard at or before it *)
Definition height_ok (t : stable) (T : bid) (hv : N) : Prop :=
  exists q, stored_at t q /\ sh q = sh T /\ b_seq q = hv /\ hv <= b_seq T.
Lemma gc_heights_ok t tops : forall acc hs, NoDup (map sh tops) -> gc_heights t tops acc = Some hs ->
  (forall T, In T tops -> exists hv, aget sh_eqb (sh T) hs = Some hv /\ height_ok t T hv) /\
  (forall s, ~ In s (map sh tops) -> aget sh_eqb s hs = aget sh_eqb s acc).
Proof.
  induction tops as [|b tops IH]; intros acc hs ND E; cbn [gc_heights map] in *.
  - injection E as <-. split; [intros T []|reflexivity].
  - destruct (seek_prev _ t) as [q|] eqn:SP; [|discriminate]. destruct (sh_eqb_spec (sh q) (sh b)) as [S1|]; [|discriminate].
    inversion ND as [|s0 l0 NI ND']; subst. destruct (IH _ _ ND' E) as [A B].
    apply seek_prev_in in SP. destruct SP as [P1 P2].
    split.
    + intros T [<-|HT]; [|now apply A]. exists (b_seq q). split.
      * rewrite B by exact NI. rewrite shset. destruct (sh_eqb_spec (sh b) (sh b)); [reflexivity|congruence].
      * exists q. split; [now apply in_stored|]. split; [exact S1|]. split; [reflexivity|].
        now apply (kle_same_shard q b (2 ^ 512 - 1)).
    + intros s Hs. cbn [In] in Hs. rewrite B by tauto. rewrite shset.
      destruct (sh_eqb_spec s (sh b)) as [->|]; [tauto|reflexivity].
Qed.

(* ---- the invariant ---- *)
(* the block x was outside what the run with this edge keeps *)
Definition out_of (e : bid) (hs : heights) (x : bid) : Prop :=
  b_seq x <> 0 /\ tb_contains (b_seq e) hs (sh x) (b_seq x) = false.
Definition tops_ok (w : world) (t : stable) (e : bid) (hs : heights) : Prop :=
  forall T, In T (w_tops w e) -> exists hv, aget sh_eqb (sh T) hs = Some hv /\ height_ok t T hv.
Record GI (w : world) (s : gsys) : Prop := {
  gi_sub : forall x r, aget bid_eqb x (g_states s) = Some r -> aget bid_eqb x (g_all s) = Some r;
  gi_root : forall x r, aget bid_eqb x (g_all s) = Some r -> r = w_root w x;
  gi_gone : forall x, stored_at (g_all s) x -> ~ stored_at (g_states s) x ->
    exists e hs, In (e, hs) (g_edges s) /\ out_of e hs x;
  gi_edges : forall e hs, In (e, hs) (g_edges s) -> tops_ok w (g_all s) e hs;
  gi_phase : match g_gc s with
    | GIdle | GEdge _ => True
    | GTop e hs => In (e, hs) (g_edges s)
    | GDel e hs cs => In (e, hs) (g_edges s) /\ forall x, In x cs -> out_of e hs x
    end;
  gi_tail : forall b, In b (g_stored s) ->
    if is_mc (sh b) then stored_at (g_all s) b
    else exists q u, stored_at (g_all s) q /\ upto w q b u /\ N.of_nat (length u) <= b_seq b mod w_step w
}.
Lemma height_mono t t' T hv : (forall x, stored_at t x -> stored_at t' x) -> height_ok t T hv -> height_ok t' T hv.
Proof. intros M (q & A & B). exists q. split; [now apply M|exact B]. Qed.
Lemma gone_set t b r x : ~ stored_at (aset bid_eqb b r t) x -> ~ stored_at t x /\ x <> b.
Proof. intros H. split; intros Q; apply H; apply stored_set; [now right|now left]. Qed.
Lemma stored_dec t x : stored_at t x \/ ~ stored_at t x.
Proof. unfold stored_at. destruct (aget bid_eqb x t) as [r|]; [left; now exists r|right; intros (r & H); discriminate]. Qed.

Lemma GI_put w s b : GI w s ->
  (In b (b :: g_stored s)) ->
  GI w (mkG (aset bid_eqb b (w_root w b) (g_states s)) (aset bid_eqb b (w_root w b) (g_all s))
            (b :: g_stored s) (g_handles s) (g_trk s) (g_gc s) (g_edges s)).
Proof.
  intros [SU RO GO ED PH TA] _.
  constructor; cbn [g_states g_all g_stored g_handles g_trk g_gc g_edges].
  - intros x r. rewrite !bset. destruct (bid_eqb x b); [tauto|apply SU].
  - intros x r. rewrite bset. destruct (bid_eqb_spec x b) as [Ex|]; [intros [= <-]; now rewrite Ex|apply RO].
  - intros x A B. apply gone_set in B. destruct B as [B NB]. apply stored_set in A. destruct A as [A|A]; [contradiction|]. now apply GO.
  - intros e hs Hin T HT. destruct (ED e hs Hin T HT) as (hv & A & B). exists hv. split; [exact A|].
    refine (height_mono _ _ _ _ _ B). intros x Hx. apply stored_set. now right.
  - exact PH.
  - intros x [<-|Hx].
    + destruct (is_mc (sh b)); [apply stored_set; now left|]. exists b, []. split; [apply stored_set; now left|].
      split; [constructor|cbn; lia].
    + specialize (TA x Hx). destruct (is_mc (sh x)); [apply stored_set; now right|].
      destruct TA as (q & u & A & B). exists q, u. split; [apply stored_set; now right|exact B].
Qed.

Lemma mod_pred a n : 0 < n -> a mod n <> 0 -> a <> 0 -> (a - 1) mod n = a mod n - 1.
Proof.
  intros Hn H NZ. assert (E := N.div_mod a n). assert (L := N.mod_lt a n).
  symmetry. apply (N.mod_unique (a - 1) n (a / n)); lia.
Qed.

Lemma gc_remove_get h b t x : aget bid_eqb x (gc_remove h b t) =
  if bid_eqb x b && negb (skip_gc h b) then None else aget bid_eqb x t.
Proof.
  unfold gc_remove. destruct (skip_gc h b); cbn [negb]; [now rewrite andb_false_r|]. rewrite andb_true_r. apply bdel.
Qed.
Lemma candidates_out mcq hs t x : In x (gc_candidates mcq hs t) ->
  stored_at t x /\ b_seq x <> 0 /\ tb_contains mcq hs (sh x) (b_seq x) = false.
Proof.
  unfold gc_candidates. intros H. apply in_map_iff in H. destruct H as ([k v] & <- & H). apply filter_In in H.
  destruct H as [H F]. cbn [fst] in *. split; [apply in_stored, in_map_iff; now exists (k, v)|].
  apply negb_true_iff, orb_false_iff in F. destruct F as [F1 F2]. apply N.eqb_neq in F1. tauto.
Qed.

Lemma GI_step w (K : world_ok w) s s' : GI w s -> gstep w s s' -> GI w s'.
Proof.
  intros G ST. inversion ST as [s0 b x|s0 b|s0 b force P NZ NI D|s0 b force P NZ NI D|s0 T HT|s0 target e P E|s0 e hs0 hs P E PM|s0 e hs P|s0 e hs b r P|s0|s0]; subst.
  - destruct G. constructor; assumption.
  - apply GI_put; [exact G|now left].
  - apply GI_put; [exact G|now left].
  - destruct G as [SU RO GO ED PH TA]. constructor; cbn [g_states g_all g_stored g_handles g_trk g_gc g_edges]; try assumption.
    intros x [<-|Hx]; [|now apply TA]. unfold direct_store in D. apply orb_false_iff in D. destruct D as [D _].
    destruct (is_mc (sh b)) eqn:M; [rewrite N.mod_1_r in D; discriminate|]. apply N.eqb_neq in D.
    destruct (wk_prev w K b NZ) as [SP QP]. specialize (TA _ P). rewrite SP, M in TA. destruct TA as (q & u & A & B & C).
    exists q, (u ++ [b]). split; [exact A|]. split; [now apply u_snoc|]. rewrite app_length. cbn [length].
    replace (b_seq (w_prev w b)) with (b_seq b - 1) in C by lia. rewrite mod_pred in C; [lia|apply (wk_step w K)|exact D|exact NZ].
  - destruct G. constructor; assumption.
  - destruct G as [SU RO GO ED PH TA]. constructor; cbn [g_states g_all g_stored g_handles g_trk g_gc g_edges]; try assumption. exact I.
  - destruct G as [SU RO GO ED PH TA]. constructor; cbn [g_states g_all g_stored g_handles g_trk g_gc g_edges]; try assumption.
    + intros x A B. destruct (GO x A B) as (e' & hs' & Q1 & Q2). exists e', hs'. split; [now right|exact Q2].
    + intros e' hs' [Eq|Hin]; [|now apply ED]. injection Eq as <- <-. intros T HT.
      destruct (gc_heights_ok _ _ _ _ (proj1 (wk_tops w K e)) E) as [A _]. destruct (A T HT) as (hv & A1 & A2).
      exists hv. split.
      * rewrite (shget_perm hs0 hs _ (gc_heights_nodup _ _ [] hs0 (NoDup_nil _) E) PM). exact A1.
      * refine (height_mono _ _ _ _ _ A2). intros x (r & Q). exists r. now apply SU.
    + now left.
  - destruct G as [SU RO GO ED PH TA]. rewrite P in PH. constructor; cbn [g_states g_all g_stored g_handles g_trk g_gc g_edges]; try assumption.
    split; [exact PH|]. intros x Hx. apply candidates_out in Hx. unfold out_of. tauto.
  - destruct G as [SU RO GO ED PH TA]. rewrite P in PH. destruct PH as [PE PC].
    constructor; cbn [g_states g_all g_stored g_handles g_trk g_gc g_edges]; try assumption.
    + intros x v. rewrite gc_remove_get. destruct (_ && _); [discriminate|apply SU].
    + intros x A B. destruct (stored_dec (g_states s) x) as [Y|Y]; [|now apply GO].
      destruct (bid_eqb_spec x b) as [Ex|Ex].
      * exists e, hs. split; [exact PE|]. apply PC. left. now symmetry.
      * exfalso. apply B. unfold stored_at in *. rewrite gc_remove_get. destruct (bid_eqb_spec x b); [contradiction|exact Y].
    + split; [exact PE|]. intros x Hx. apply PC. now right.
  - destruct G as [SU RO GO ED PH TA]. constructor; cbn [g_states g_all g_stored g_handles g_trk g_gc g_edges]; try assumption. exact I.
  - destruct G as [SU RO GO ED PH TA]. constructor; cbn [g_states g_all g_stored g_handles g_trk g_gc g_edges]; try assumption. exact I.
Qed.
Lemma greach_GI w (K : world_ok w) s : greach w s -> GI w s.
Proof.
  intros H. induction H as [|s s' H IH ST]; [|exact (GI_step w K s s' IH ST)].
  constructor; cbn [g_init g_states g_all g_stored g_handles g_trk g_gc g_edges].
  - intros x r H. discriminate.
  - intros x r H. discriminate.
  - intros x (r & H). discriminate.
  - intros e hs [].
  - exact I.
  - intros b [].
Qed.

(* the pivot of a block that is not older than any edge is never removed *)
Lemma pivot_kept w (K : world_ok w) s b n p r u : GI w s -> In b (g_stored s) ->
  (forall e hs, In (e, hs) (g_edges s) -> not_older w (g_all s) e b) ->
  walk w (S n) (g_all s) (g_handles s) b = Some (p, r, u) -> stored_at (g_states s) p.
Proof.
  intros [SU RO GO ED PH TA] Hb NO W.
  assert (Hp : stored_at (g_all s) p).
  { clear - W. revert b u W. generalize (S n). intros m. induction m as [|m IH]; intros b u W; cbn [walk] in W; [discriminate|].
    destruct (aget bid_eqb b (g_all s)) as [r0|] eqn:G; [injection W as <- _ _; now exists r0|].
    destruct (aget bid_eqb b (g_handles s)) as [x|]; [|discriminate]. destruct (h_data x && h_prev x); [|discriminate].
    destruct (walk w m (g_all s) (g_handles s) (w_prev w b)) as [[[p' r'] u']|] eqn:W2; [|discriminate].
    injection W as -> -> _. exact (IH _ _ W2). }
  destruct (stored_dec (g_states s) p) as [Y|Y]; [exact Y|]. exfalso.
  destruct (GO p Hp Y) as (e & hs & Q1 & NZ & OUT). specialize (NO e hs Q1). unfold not_older in NO.
  specialize (TA b Hb). destruct (is_mc (sh b)) eqn:M.
  - destruct TA as (r1 & TA). cbn [walk] in W. rewrite TA in W. injection W as <- _ _.
    unfold tb_contains in OUT. rewrite M in OUT. apply N.leb_gt in OUT. exact (N.lt_irrefl _ (N.lt_le_trans _ _ _ OUT NO)).
  - destruct NO as (T & T1 & T2 & T3). destruct (ED e hs Q1 T T1) as (hv & E1 & q & E2 & E3 & E4 & E5).
    assert (DQ : desc w b q) by (apply (desc_trans w b T q T2); apply T3; [exact E2|exact E3|lia]).
    destruct (walk_stops w K _ _ q E2 _ _ DQ _ _ _ W) as [A B].
    apply (desc_sh w K) in A. destruct A as [A _]. apply (desc_sh w K) in B. destruct B as [_ B]. destruct (desc_sh w K _ _ T2) as [C _].
    unfold tb_contains, sh_contains in OUT. replace (sh p) with (sh T) in OUT by congruence.
    rewrite (proj2 (wk_tops w K e) T T1), E1 in OUT. apply N.leb_gt in OUT. lia.
Qed.

(* As if GC had never run: a block that is not older than the edges loads to
   the same pivot, root and updates as from a table nothing was removed from. *)
Theorem gc_preserves_loads w s b res : world_ok w -> greach w s -> In b (g_stored s) ->
  (forall e hs, In (e, hs) (g_edges s) -> not_older w (g_all s) e b) ->
  load_state w (g_all s) (g_handles s) b = Some res ->
  load_state w (g_states s) (g_handles s) b = Some res.
Proof.
  intros K H Hb NO. destruct res as [[p r] u]. unfold load_state. intros W.
  pose proof (greach_GI w K s H) as G. refine (walk_sub w _ _ _ (gi_sub w s G) _ _ _ _ _ W _).
  exact (pivot_kept w K s b _ p r u G Hb NO W).
Qed.

(* And it does load: the nearest direct state is fewer than `step` blocks
   away, the result is that state and the updates of the blocks after it. *)
Theorem gc_states_loadable w s b : world_ok w -> greach w s -> In b (g_stored s) ->
  (forall e hs, In (e, hs) (g_edges s) -> not_older w (g_all s) e b) ->
  (forall x, desc w b x -> ~ stored_at (g_all s) x -> linked (g_handles s) x) ->
  exists p u, load_state w (g_states s) (g_handles s) b = Some (p, w_root w p, u) /\
    upto w p b u /\ N.of_nat (length u) < w_step w /\
    (is_mc (sh b) = true -> p = b) /\
    (is_mc (sh b) = false -> load_prev w (g_states s) (g_handles s) b = Some (p, w_root w p, u)).
Proof.
  intros K H Hb NO LK. pose proof (greach_GI w K s H) as G. pose proof (gi_tail w s G b Hb) as TA.
  pose proof (wk_step w K) as PS.
  destruct (is_mc (sh b)) eqn:M.
  - destruct TA as (r & TA). assert (W : load_state w (g_all s) (g_handles s) b = Some (b, r, [])).
    { unfold load_state. cbn [walk]. now rewrite TA. }
    exists b, []. rewrite <- (gi_root w s G b r TA). split; [now apply gc_preserves_loads|].
    split; [constructor|]. split; [cbn; lia|]. split; [reflexivity|discriminate].
  - destruct TA as (q & u & A & B & C). assert (LT := N.mod_lt (b_seq b) (w_step w)).
    destruct (walk_finds w K (g_handles s) (g_all s) q A b u B) with (n := N.to_nat (w_step w)) as (p & r & u' & W & P1 & P2 & P3).
    + intros x X1 X2 X3 X4. now apply LK.
    + lia.
    + assert (E : exists n, N.to_nat (w_step w) = S n) by (exists (Nat.pred (N.to_nat (w_step w))); lia).
      destruct E as (n & E).
      assert (WP : walk w (N.to_nat (w_step w)) (g_states s) (g_handles s) b = Some (p, r, u')).
      { refine (walk_sub w _ _ _ (gi_sub w s G) _ _ _ _ _ W _). rewrite E in W. exact (pivot_kept w K s b n p r u' G Hb NO W). }
      assert (MONO : forall k t h x res, walk w k t h x = Some res -> walk w (S k) t h x = Some res).
      { clear. induction k as [|k IH]; intros t h x res W; [discriminate|]. cbn [walk] in W |- *.
        destruct (aget bid_eqb x t); [exact W|]. destruct (aget bid_eqb x h) as [y|]; [|discriminate].
        destruct (h_data y && h_prev y); [|discriminate].
        destruct (walk w k t h (w_prev w x)) as [z|] eqn:Z; [|discriminate]. pose proof (IH _ _ _ _ Z) as Q. cbn [walk] in Q. now rewrite Q. }
      exists p, u'. rewrite <- (gi_root w s G p r P1). split; [unfold load_state; now apply MONO|].
      split; [exact P2|]. split; [lia|]. split; [discriminate|]. intros _. unfold load_prev. now rewrite M.
Qed.

(* What may be removed. *)
Theorem gc_removes_only_old w s s' x : world_ok w -> greach w s -> gstep w s s' ->
  stored_at (g_states s) x -> ~ stored_at (g_states s') x ->
  b_seq x <> 0 /\ skip_gc (g_handles s) x = false /\
  exists e hs, In (e, hs) (g_edges s) /\
    (is_mc (sh x) = true -> b_seq x < b_seq e) /\
    (is_mc (sh x) = false -> forall T, In T (w_tops w e) -> sh T = sh x ->
      exists q, stored_at (g_all s) q /\ sh q = sh x /\ b_seq x < b_seq q /\ b_seq q <= b_seq T).
Proof.
  intros K H ST A B. pose proof (greach_GI w K s H) as G.
  inversion ST as [s0 b y|s0 b|s0 b force P NZ NI D|s0 b force P NZ NI D|s0 T HT|s0 target e P E|s0 e hs0 hs P E PM|s0 e hs P|s0 e hs b r P|s0|s0]; subst;
    cbn [g_states] in B; try contradiction.
  - exfalso. apply B. apply stored_set. now right.
  - exfalso. apply B. apply stored_set. now right.
  - pose proof (gi_phase w s G) as PH. rewrite P in PH. destruct PH as [PE PC].
    unfold stored_at in A, B. rewrite gc_remove_get in B. destruct (bid_eqb_spec x b) as [Ex|Ex]; cbn [andb] in B; [|contradiction].
    rewrite <- Ex in B. destruct (skip_gc (g_handles s) x) eqn:SK; cbn [negb] in B; [contradiction|].
    destruct (PC x) as [NZ OUT]; [left; now symmetry|]. split; [exact NZ|]. split; [reflexivity|].
    exists e, hs. split; [exact PE|]. unfold tb_contains in OUT. split.
    + intros M. rewrite M in OUT. lia.
    + intros M T T1 T2. rewrite M in OUT. destruct (gi_edges w s G e hs PE T T1) as (hv & E1 & q & E2 & E3 & E4 & E5).
      rewrite T2 in E1. unfold sh_contains in OUT. rewrite E1 in OUT. exists q. split; [exact E2|]. split; [congruence|]. lia.
Qed.

(* The edge is not above what states in memory need, nor above what was asked. *)
Theorem gc_edge_safe w s target e : world_ok w -> greach w s ->
  gc_edge w (g_states s) (g_handles s) (tr_seqno (ts_tr (g_trk s))) target = Some e ->
  sh e = mc_shard /\ stored_at (g_states s) e /\ b_seq e <= target /\
  forall m, In m (ts_live (g_trk s)) -> b_seq e <= m.
Proof.
  intros K H E.
  assert (TR : treach (g_trk s)).
  { clear E target e K. induction H as [|s s' H IH ST]; [constructor|]. inversion ST; subst; cbn [g_trk]; try exact IH; [now apply (tr_step _ _ IH)|constructor]. }
  unfold gc_edge in E. destruct (find_mc _ (g_states s)) as [b|] eqn:F1; [|discriminate].
  destruct (has_data (g_handles s) b); [|discriminate].
  destruct (find_mc (w_minref w b) (g_states s)) as [e'|] eqn:F2; [|discriminate].
  destruct (has_data (g_handles s) e'); [|discriminate]. injection E as ->.
  apply find_mc_in in F1. apply find_mc_in in F2. destruct F1 as (_ & _ & F1). destruct F2 as (A & B & C).
  pose proof (wk_minref w K b) as MR.
  split; [exact B|]. split; [now apply in_stored|].
  destruct (tr_seqno (ts_tr (g_trk s))) as [m|] eqn:TS.
  - split; [destruct (N.ltb_spec m target); lia|]. intros m' Hm'.
    destruct (tracker_protects _ TR m' Hm') as (m2 & P1 & P2). rewrite TS in P1. injection P1 as <-.
    destruct (N.ltb_spec m target); lia.
  - split; [lia|]. intros m' Hm'. destruct (tracker_protects _ TR m' Hm') as (m2 & P1 & P2). congruence.
Qed.

(* The height kept for a shard is its latest direct state at or before the
   top block; without one, or with an unknown edge, nothing is removed. *)
Theorem gc_heights_exact t tops hs : NoDup (map sh tops) ->
  (forall x, stored_at t x -> b_hash x < 2 ^ 512) ->
  gc_heights t tops [] = Some hs -> forall T, In T tops ->
  exists q, stored_at t q /\ sh q = sh T /\ aget sh_eqb (sh T) hs = Some (b_seq q) /\ b_seq q <= b_seq T /\
    forall x, stored_at t x -> sh x = sh T -> b_seq x <= b_seq T -> b_seq x <= b_seq q.
Proof.
  intros ND HB. generalize ([] : heights). revert hs ND. induction tops as [|b tops IH]; intros hs ND acc E T HT; [destruct HT|].
  cbn [gc_heights] in E. destruct (seek_prev _ t) as [q|] eqn:SP; [|discriminate].
  destruct (sh_eqb_spec (sh q) (sh b)) as [S1|]; [|discriminate]. cbn [map] in ND. inversion ND as [|s0 l0 NI ND']; subst.
  destruct HT as [<-|HT]; [|exact (IH hs ND' _ E T HT)].
  pose proof (seek_prev_max (mkBid (b_wc b) (b_pfx b) (b_seq b) (2 ^ 512 - 1)) t) as MX. rewrite SP in MX.
  apply seek_prev_in in SP. destruct SP as [P1 P2]. exists q. split; [now apply in_stored|]. split; [exact S1|].
  split.
  - destruct (gc_heights_ok _ _ _ _ ND' E) as [_ B]. rewrite B by exact NI. rewrite shset.
    destruct (sh_eqb_spec (sh b) (sh b)); [reflexivity|congruence].
  - split; [now apply (kle_same_shard q b (2 ^ 512 - 1))|]. intros x X1 X2 X3.
    assert (KX : kle x q = true).
    { apply MX; [now apply stored_in|]. specialize (HB x X1). revert X2 X3 HB. unfold sh, kle. destruct x, b; cbn. intros [= -> ->]. lia. }
    rewrite <- S1 in X2. revert X2 KX. unfold sh, kle. destruct x, q; cbn. intros [= -> ->]. lia.
Qed.
Theorem gc_needs_direct_states t tops : (forall x, stored_at t x -> b_hash x < 2 ^ 512) -> forall acc,
  gc_heights t tops acc = None <->
  exists T, In T tops /\ forall x, stored_at t x -> sh x = sh T -> b_seq T < b_seq x.
Proof.
  intros HB. induction tops as [|b tops IH]; intros acc; cbn [gc_heights].
  - split; [discriminate|]. intros (T & [] & _).
  - pose proof (seek_prev_max (mkBid (b_wc b) (b_pfx b) (b_seq b) (2 ^ 512 - 1)) t) as MX.
    assert (BND : forall x, stored_at t x -> sh x = sh b -> b_seq x <= b_seq b ->
       kle x (mkBid (b_wc b) (b_pfx b) (b_seq b) (2 ^ 512 - 1)) = true).
    { intros x X1 X2 X3. specialize (HB x X1). revert X2 X3 HB. unfold sh, kle. destruct x, b; cbn. intros [= -> ->]. lia. }
    destruct (seek_prev _ t) as [q|] eqn:SP.
    + apply seek_prev_in in SP. destruct SP as [P1 P2]. destruct (sh_eqb_spec (sh q) (sh b)) as [S1|S1].
      * rewrite IH. split; intros (T & T1 & T2); exists T; (split; [|exact T2]); [now right|].
        destruct T1 as [<-|T1]; [|exact T1]. exfalso. pose proof (kle_same_shard q b _ S1 P2).
        specialize (T2 q (in_stored _ _ P1) S1). lia.
      * split; [intros _|reflexivity]. exists b. split; [now left|]. intros x X1 X2.
        destruct (N.lt_ge_cases (b_seq b) (b_seq x)) as [L|L]; [exact L|]. exfalso.
        pose proof (MX x (stored_in _ _ X1) (BND x X1 X2 L)) as KX.
        revert S1 X2 KX P2. unfold sh, kle. destruct x, q, b; cbn. intros S1 [= -> ->] KX P2. apply S1. f_equal; lia.
    + split; [intros _|reflexivity]. exists b. split; [now left|]. intros x X1 X2.
      destruct (N.lt_ge_cases (b_seq b) (b_seq x)) as [L|L]; [exact L|]. exfalso.
      specialize (MX x (stored_in _ _ X1)). rewrite (BND x X1 X2 L) in MX. discriminate.
Qed.

(* A run that nothing interferes with removes exactly what is below the
   edge, except zerostates and flagged states. *)
Inductive gc_runs (w : world) : gsys -> gsys -> Prop :=
| gcr_done s e hs : g_gc s = GDel e hs [] -> gc_runs w s s
| gcr_next s s' s2 e hs b r : g_gc s = GDel e hs (b :: r) -> gstep w s s' ->
    s' = mkG (gc_remove (g_handles s) b (g_states s)) (g_all s) (g_stored s) (g_handles s) (g_trk s) (GDel e hs r) (g_edges s) ->
    gc_runs w s' s2 -> gc_runs w s s2.
Lemma gc_runs_get w s s2 : gc_runs w s s2 -> forall e hs cs, g_gc s = GDel e hs cs ->
  forall x, aget bid_eqb x (g_states s2) =
    if existsb (bid_eqb x) cs && negb (skip_gc (g_handles s) x) then None else aget bid_eqb x (g_states s).
Proof.
  intros H. induction H as [s e hs P|s s' s2 e hs b r P ST E H IH]; intros e' hs' cs Q x.
  - rewrite P in Q. injection Q as <- <- <-. reflexivity.
  - rewrite P in Q. injection Q as <- <- <-. subst s'. cbn [g_gc g_handles g_states] in IH.
    rewrite (IH e hs r eq_refl x). rewrite gc_remove_get. cbn [existsb].
    destruct (bid_eqb_spec x b) as [Ex|Ex]; cbn [orb andb].
    + rewrite <- Ex. destruct (skip_gc (g_handles s) x); cbn [negb]; [now rewrite andb_false_r|].
      destruct (existsb (bid_eqb x) r && true); reflexivity.
    + reflexivity.
Qed.
Lemma cand_iff mcq hs t x : existsb (bid_eqb x) (gc_candidates mcq hs t) =
  match aget bid_eqb x t with Some _ => negb ((b_seq x =? 0) || tb_contains mcq hs (sh x) (b_seq x)) | None => false end.
Proof.
  unfold gc_candidates. induction t as [|[k v] t IH]; cbn [filter map existsb aget fst]; [reflexivity|].
  destruct (bid_eqb_spec x k) as [Ex|Ex].
  - subst k. destruct (negb ((b_seq x =? 0) || tb_contains mcq hs (sh x) (b_seq x))) eqn:F; cbn [map existsb fst].
    + destruct (bid_eqb_spec x x); [reflexivity|congruence].
    + rewrite IH. destruct (aget bid_eqb x t); reflexivity.
  - destruct (negb ((b_seq k =? 0) || tb_contains mcq hs (sh k) (b_seq k))); cbn [map existsb fst]; [|exact IH]. rewrite IH. destruct (bid_eqb_spec x k); [contradiction|reflexivity].
Qed.
Theorem gc_run_exact w s e hs s2 : g_gc s = GTop e hs ->
  gc_runs w (mkG (g_states s) (g_all s) (g_stored s) (g_handles s) (g_trk s)
                 (GDel e hs (gc_candidates (b_seq e) hs (g_states s))) (g_edges s)) s2 ->
  forall x, stored_at (g_states s2) x <->
    stored_at (g_states s) x /\
    (b_seq x = 0 \/ skip_gc (g_handles s) x = true \/ tb_contains (b_seq e) hs (sh x) (b_seq x) = true).
Proof.
  intros P H x. unfold stored_at. rewrite (gc_runs_get w _ _ H e hs _ eq_refl x). cbn [g_states g_handles]. rewrite cand_iff.
  destruct (aget bid_eqb x (g_states s)) as [r|].
  - destruct (N.eqb_spec (b_seq x) 0) as [Z|Z]; cbn [orb negb andb].
    + split; intros _; [split; [now exists r|now left]|now exists r].
    + destruct (tb_contains _ hs (sh x) (b_seq x)); cbn [negb andb].
      * split; intros _; [split; [now exists r|tauto]|now exists r].
      * destruct (skip_gc (g_handles s) x); cbn [negb].
        -- split; intros _; [split; [now exists r|tauto]|now exists r].
        -- split; [intros (r' & Q); discriminate|]. intros [_ [Q|[Q|Q]]]; [contradiction|discriminate..].
  - cbn [andb]. split; [intros (r' & Q); discriminate|]. intros [(r' & Q) _]. discriminate.
Qed.
