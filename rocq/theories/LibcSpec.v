(** Vocabulary of C44 and C54: the story of one libc-mode thread. *)
From Verif Require Import Machine LayoutModel LibcModel.

(** Steps that call number [i] and its thread made, oldest first, leaving out
    user code's own writes and the joining or detaching by others. *)
Definition own_label (l : llabel) : bool :=
  match l with LUser _ | LJoin _ | LDetach => false | _ => true end.
Definition own (i : nat) (tr : list (nat * llabel)) : list llabel :=
  rev (map snd (filter (fun e => Nat.eqb (fst e) i && own_label (snd e)) tr)).

(** Storing consecutive words from address [p] on. *)
Fixpoint stores (w : Z) (p : Z) (vs : list Z) : list llabel :=
  match vs with [] => [] | v :: q => LStore p v :: stores w (p + w) q end.

(** The story of a call that succeeds and whose function returns [v]: the pack
    of n + 2 words at [p] gets the count, the function and the arguments
    before the thread starts; the thread calls the function on the last n words
    of the pack, then frees the pack, once, and touches it no more. *)
Definition script (a : arch) (q : creq) (p v : Z) : list llabel :=
  let n := Z.of_nat (length (q_args q)) in let w := wsz a in
  [LCreate q; LAttrInit 0; LSetStack (q_stack q) 0; LSetGuard (q_guard q) 0; LMalloc ((n + 2) * w) p] ++
  stores w p (n :: q_fn q :: q_args q) ++
  [LSpawn p 0; LLoad p; LLoad (p + w); LCall (q_fn q) (p + 2 * w) n; LRet v; LFree p; LReturn v].

(** The same with a failing libc call as the last step. *)
Definition failed (a : arch) (q : creq) (e : Z) (ls : list llabel) : Prop :=
  let n := Z.of_nat (length (q_args q)) in let w := wsz a in
  (e <> 0 /\ ls = [LCreate q; LAttrInit e]) \/
  (e <> 0 /\ ls = [LCreate q; LAttrInit 0; LSetStack (q_stack q) e]) \/
  (e <> 0 /\ ls = [LCreate q; LAttrInit 0; LSetStack (q_stack q) 0; LSetGuard (q_guard q) e]) \/
  (e = 12 /\ ls = [LCreate q; LAttrInit 0; LSetStack (q_stack q) 0; LSetGuard (q_guard q) 0; LMalloc ((n + 2) * w) 0]) \/
  (e <> 0 /\ exists p, ls = [LCreate q; LAttrInit 0; LSetStack (q_stack q) 0; LSetGuard (q_guard q) 0; LMalloc ((n + 2) * w) p] ++
                            stores w p (n :: q_fn q :: q_args q) ++ [LSpawn p e]).

Definition prefix {A} (l l' : list A) : Prop := exists r, l' = l ++ r.

(** What create returned, if it has. *)
Definition create_result (s : lst) (i : nat) : option (option Z) :=   (* Some None: Ok; Some (Some e): Err(e) *)
  match rec s i with
  | Some r => match k_pc r with KOk => Some None | KErr e => Some (Some e) | _ => None end
  | None => None
  end.

(** Exit functions: the functions registered on list [l] (a thread's, or the
    process's) and not yet called, most recent first, if every call so far was
    of the most recently registered function still waiting; [None] otherwise. *)
Definition same_list (l k : option nat) : bool :=
  match l, k with None, None => true | Some x, Some y => Nat.eqb x y | _, _ => false end.
Fixpoint waiting (l : option nat) (tr : list elabel) : option (list nat) :=
  match tr with
  | [] => Some []
  | ERegister k f _ :: q => if same_list l k then option_map (cons f) (waiting l q) else waiting l q
  | ECalled k f _ :: q =>
      if same_list l k then
        match waiting l q with
        | Some (g :: r) => if Nat.eqb g f then Some r else None
        | _ => None
        end
      else waiting l q
  | EDouble _ _ :: _ => None
  end.
