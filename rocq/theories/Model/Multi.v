(** parallel_map: galpy/util/multi.py.

    The parent and its worker processes are a transition system: a schedule says which worker takes its next step, or is killed, at each
    moment.  A step of a worker is one call of the function or the final put into the output queue.  Not modelled: failure to create the manager,
    the queues or a process; the conversion of the elements of the sequence to numpy types; results that are arrays of unequal shape
    (numpy.concatenate); the text of the progress bar (but its shared counter is). *)
From Coq Require Import List Arith Lia ZArith Bool.
Import ListNotations.

Section Multi.
  Context {A B E : Type}.
  (** A call of the function returns a value or raises. *)
  Inductive res := Val (b : B) | Exc (e : E).
  Variable f : A -> res.

  (** numpy.array_split(sequence, n): the first size mod n chunks have one element more. *)
  Fixpoint cut (sizes : list nat) (xs : list A) : list (list A) :=
    match sizes with [] => [] | k :: sizes => firstn k xs :: cut sizes (skipn k xs) end.
  Definition array_split (xs : list A) (n : nat) : list (list A) :=
    let each := length xs / n in
    let extras := length xs mod n in
    cut (repeat (each + 1) extras ++ repeat each (n - extras)) xs.

  (** worker, 58-112.  [Run rest vals]: in the loop; [Finished]: has put its result; [Failed]: has put an exception; [Dead]: killed
      from outside, or left by an exception that is not an Exception (KeyboardInterrupt, SystemExit). *)
  Inductive proc := Run (rest : list A) (vals : list B) | Finished | Failed | Dead.
  Record state := mkState { procs : list proc; out_q : list (nat * list B); err_q : list E; iter_elapsed : nat }.
  Inductive event := Step (i : nat) | Kill (i : nat).
  Fixpoint upd {X} (l : list X) (i : nat) (x : X) : list X :=
    match l, i with [] , _ => [] | _ :: l, O => x :: l | y :: l, S i => y :: upd l i x end.
  (** One event; [pbar] is the flag and [last] the process that shows the bar *)
  Definition step (pbar : bool) (last : nat) (s : state) (ev : event) : state :=
    match ev with
    | Kill i => match nth_error (procs s) i with
                | Some (Run _ _) => mkState (upd (procs s) i Dead) (out_q s) (err_q s) (iter_elapsed s)
                | _ => s
                end
    | Step i => match nth_error (procs s) i with
                | Some (Run [] vals) => mkState (upd (procs s) i Finished) (out_q s ++ [(i, vals)]) (err_q s) (iter_elapsed s)
                | Some (Run (x :: rest) vals) =>
                  match f x with
                  | Exc e => mkState (upd (procs s) i Failed) (out_q s) (err_q s ++ [e]) (iter_elapsed s)
                  | Val b => mkState (upd (procs s) i (Run rest (vals ++ [b]))) (out_q s) (err_q s)
                                     (if pbar then if i =? last then 0 else iter_elapsed s + 1 else iter_elapsed s)
                  end
                | _ => s
                end
    end.
  Definition start (chunks : list (list A)) : state := mkState (map (fun c => Run c []) chunks) [] [] 0.
  Definition running (p : proc) : bool := match p with Run _ _ => true | _ => false end.

  (** What the caller gets: a list, a lazy iterator over function and sequence (map object), or an exception. *)
  Inductive outcome := List (l : list B) | Lazy (xs : list A) | Raises (e : E) | ConcatError | ValueError.
  (** run_tasks, 115-157, after all joins (none when some process is still running: the parent waits) *)
  Definition drain (num : nat) (q : list (nat * list B)) : list (option (list B)) :=
    fold_left (fun r p => upd r (fst p) (Some (snd p))) q (repeat None num).
  Fixpoint concat_all (r : list (option (list B))) : option (list B) :=
    match r with
    | [] => Some []
    | None :: _ => None
    | Some l :: r => option_map (app l) (concat_all r)
    end.
  Definition collect (num : nat) (s : state) : option outcome :=
    if existsb running (procs s) then None
    else match err_q s with
         | e :: _ => Some (Raises e)
         | [] => match concat_all (drain num (out_q s)) with Some l => Some (List l) | None => Some ConcatError end
         end.
  (** parallel_map, 160-232.  [multi]: multiprocessing could be imported; [windows]: platform.system() *)
  Definition parallel_map (multi windows : bool) (ncpus : Z) (xs : list A) (numcores : option Z) (pbar : bool) (schedule : list event) : option outcome :=
    let size := length xs in
    if negb multi || (size =? 1) then Some (Lazy xs)
    else
      let n := match numcores with None => ncpus | Some n => n end in
      if windows then
        Some (match (fix go l := match l with [] => inl [] | x :: l => match f x with Exc e => inr e | Val b => match go l with inl r => inl (b :: r) | inr e => inr e end end end) xs with
              | inl r => List r | inr e => Raises e end)
      else
        let n := if (Z.of_nat size <? n)%Z then Z.of_nat size else n in
        if (n <=? 0)%Z then Some ValueError
        else
          let n := Z.to_nat n in
          collect n (fold_left (step pbar (n - 1)) schedule (start (array_split xs n))).
End Multi.
Arguments res : clear implicits.
Arguments outcome : clear implicits.
Arguments proc : clear implicits.
Arguments state : clear implicits.
