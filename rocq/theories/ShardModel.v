(** Model of [collator/src/utils/shard.rs].

    A [ShardIdent] (tycho-types crate, not in /repo) is modelled as workchain plus the path of
    split decisions from the full shard ([false] = left half), at most 60 long
    ([ShardIdent::MAX_SPLIT_DEPTH]).  [is_ancestor_of] is modelled as "proper prefix"; the code
    compares for equality before, so whether the library's answer is reflexive does not matter. *)
From Coq Require Export List Bool ZArith.
Export ListNotations.

Record shard := MkShard { wc : Z; path : list bool }.

Definition max_split_depth : nat := 60.

Fixpoint list_bool_eqb (a b : list bool) : bool :=
  match a, b with
  | [], [] => true
  | x :: a, y :: b => Bool.eqb x y && list_bool_eqb a b
  | _, _ => false
  end.
Definition shard_eqb (a b : shard) : bool := Z.eqb (wc a) (wc b) && list_bool_eqb (path a) (path b).

(** proper prefix *)
Fixpoint proper_prefix (a b : list bool) : bool :=
  match a, b with
  | [], _ :: _ => true
  | x :: a, y :: b => Bool.eqb x y && proper_prefix a b
  | _, _ => false
  end.
(** [ShardIdent::is_ancestor_of] (tycho-types), used at shard.rs:68 and 71 *)
Definition is_ancestor_of (a b : shard) : bool := Z.eqb (wc a) (wc b) && proper_prefix (path a) (path b).

Definition child (s : shard) (b : bool) : shard := MkShard (wc s) (path s ++ [b]).
(** [ShardIdent::split] (tycho-types), used at shard.rs:89 *)
Definition split (s : shard) : option (shard * shard) :=
  if Nat.ltb (length (path s)) max_split_depth then Some (child s false, child s true) else None.
Definition full (w : Z) : shard := MkShard w [].

(** collator/src/utils/shard.rs:6-11 *)
Inductive action := Add (s : shard) | Split (s : shard) | Merge (a b : shard).
Definition action_eqb (x y : action) : bool :=
  match x, y with
  | Add a, Add b => shard_eqb a b
  | Split a, Split b => shard_eqb a b
  | Merge a b, Merge c d => shard_eqb a c && shard_eqb b d
  | _, _ => false
  end.

(** collator/src/utils/shard.rs:13-20 *)
Inductive pstep :=
| CheckAction (s : shard) (sub : option (list shard)) (act : option action)
| DoAction (ch : list shard) (act : action).

Definition opt_list {X} (o : option X) : list X := match o with Some x => [x] | None => [] end.

(** the loop over [to_shards] at shard.rs:62-76: pushed actions, [child_to_shards], new
    [rest_to_shards] *)
Fixpoint scan (from : shard) (act : option action) (tos : list shard)
  : list action * list shard * list shard :=
  match tos with
  | [] => ([], [], [])
  | t :: r =>
      let '(o, c, q) := scan from act r in
      if shard_eqb from t then (opt_list act ++ o, c, q)
      else if is_ancestor_of from t then (o, t :: c, q)
      else if is_ancestor_of t from then (o, c, q)
      else (o, c, t :: q)
  end.

Definition isnil {X} (l : list X) : bool := match l with [] => true | _ => false end.

(** the work loop, shard.rs:53-113.  [None]: out of fuel; [Some None]: the error of L89-95. *)
Fixpoint loop (fuel : nat) (q : list pstep) (rest : list shard) (out : list action)
  : option (option (list action)) :=
  match fuel with
  | O => None
  | S fuel =>
      match q with
      | [] => Some (Some out)
      | CheckAction from sub act :: q =>
          let tos := match sub with Some l => l | None => rest end in
          let '(o, ch, rest') := scan from act tos in
          if isnil ch then loop fuel q rest' (out ++ o)
          else loop fuel (q ++ [DoAction ch (Split from)]) rest' (out ++ o ++ opt_list act)
      | DoAction ch act :: q =>
          match act with
          | Split from =>
              match split from with
              | None => Some None
              | Some (l, r) =>
                  loop fuel (q ++ [CheckAction l (Some ch) (Some act); CheckAction r None (Some act)])
                       rest out
              end
          | Merge _ _ => loop fuel q rest out
          | Add _ => loop fuel q rest out
          end
      end
  end.

(** [Vec::dedup_by(|a, b| a == b)], shard.rs:115 *)
Fixpoint dedup (l : list action) : list action :=
  match l with
  | [] => []
  | x :: r => match dedup r with
              | [] => [x]
              | y :: r' => if action_eqb x y then y :: r' else x :: y :: r'
              end
  end.

(** collator/src/utils/shard.rs:24-118.  [None]: out of fuel, [Some None]: [Err] *)
Definition calc_split_merge_actions (fuel : nat) (from to : list shard)
  : option (option (list action)) :=
  match (match to with t :: _ => Some (wc t) | [] => match from with f :: _ => Some (wc f) | [] => None end end) with
  | None => Some None
  | Some w =>
      let planned :=
        match from with
        | [] => [CheckAction (full w) None None]
        | _ => map (fun s => CheckAction s None None) from
        end in
      let out0 := match from with [] => map Add to | _ => [] end in
      match loop fuel planned to out0 with
      | None => None
      | Some None => Some None
      | Some (Some out) => Some (Some (dedup out))
      end
  end.
