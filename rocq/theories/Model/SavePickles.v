(** save_pickles: galpy/util/__init__.py 39-85, as a machine whose steps are the individual effects on the file system, so that a crash can
    happen between any two of them.

    [data] are the pickles of the arguments (bytes of any type).  The content of a file survives the crash of the process; loss of data in the
    page cache (power failure) is not modelled.  The target is a path that is not a directory. *)
From Coq Require Import List Bool Arith.
Import ListNotations.

Section SP.
  Context {byte : Type}.
  Variable data : list (list byte).
  (** The temporary file, in the system's directory for such files, and the target are on the same file system: then shutil.move is a
      rename; otherwise it copies (open for writing, write, copystat) and then unlinks. *)
  Variable same_fs : bool.

  Inductive pc :=
  | Mkstemp | Open | SetOpen | Dump (written : nat) | Close | SetClosed
  | Rename | CopyOpen | Copy (copied : nat) | Unlink | SetSaved | Check | Handler
  | Returned | RaisedInterrupt | RaisedError | RaisedUnbound.
  Record st := mkSt { at_ : pc; tmp : option (list byte); target : option (list byte); saving : bool; interrupted : bool; file_open : option bool }.
  (** What happens next: the program goes on, Ctrl-C arrives, or the operation fails (pickling error, OSError). *)
  Inductive ev := Go | CtrlC | Fail.
  Definition init (old : option (list byte)) : st := mkSt Mkstemp None old true false None.
  Definition goto (s : st) (p : pc) : st := mkSt p (tmp s) (target s) (saving s) (interrupted s) (file_open s).
  (** The finally clause (83-85) and then what follows it: [p] *)
  Definition finally (s : st) (p : pc) : st :=
    match file_open s with
    | None => goto s RaisedUnbound
    | Some _ => goto s p
    end.
  Definition bytes : list byte := concat data.
  Definition step (s : st) (e : ev) : st :=
    match at_ s with
    | Returned | RaisedInterrupt | RaisedError | RaisedUnbound => s
    | Mkstemp => match e with                                                            (* 63-64 *)
                 | Go => mkSt Open (Some []) (target s) (saving s) (interrupted s) (file_open s)
                 | CtrlC => goto s RaisedInterrupt
                 | Fail => goto s RaisedError
                 end
    | Handler => match e with                                                            (* 81-82, then finally, then while *)
                 | Go => finally (mkSt Open (tmp s) (target s) (saving s) true (file_open s)) Open
                 | CtrlC | Fail => finally s RaisedInterrupt
                 end
    | p =>
      match e with
      | CtrlC => if saving s then goto s Handler else finally s RaisedInterrupt           (* 78-80 *)
      | Fail => match p with SetOpen | SetClosed | SetSaved | Check => s | _ => finally s RaisedError end
      | Go =>
        match p with
        | Open => mkSt SetOpen (Some []) (target s) (saving s) (interrupted s) (file_open s)        (* 67 *)
        | SetOpen => mkSt (Dump 0) (tmp s) (target s) (saving s) (interrupted s) (Some true)        (* 68 *)
        | Dump k => match nth_error bytes k with                                                    (* 71-72 *)
                    | Some b => mkSt (Dump (S k)) (option_map (fun c => c ++ [b]) (tmp s)) (target s) (saving s) (interrupted s) (file_open s)
                    | None => goto s Close
                    end
        | Close => goto s SetClosed                                                                 (* 73 *)
        | SetClosed => mkSt (if same_fs then Rename else CopyOpen) (tmp s) (target s) (saving s) (interrupted s) (Some false)   (* 74 *)
        | Rename => mkSt SetSaved None (tmp s) (saving s) (interrupted s) (file_open s)             (* 75 *)
        | CopyOpen => mkSt (Copy 0) (tmp s) (Some []) (saving s) (interrupted s) (file_open s)
        | Copy k => match tmp s with
                    | None => finally s RaisedError
                    | Some c => match nth_error c k with
                                | Some b => mkSt (Copy (S k)) (tmp s) (option_map (fun t => t ++ [b]) (target s)) (saving s) (interrupted s) (file_open s)
                                | None => goto s Unlink
                                end
                    end
        | Unlink => mkSt SetSaved None (target s) (saving s) (interrupted s) (file_open s)
        | SetSaved => mkSt Check (tmp s) (target s) false (interrupted s) (file_open s)             (* 76 *)
        | Check => finally s (if interrupted s then RaisedInterrupt else Returned)                  (* 77-80, 83, while *)
        | _ => s
        end
      end
    end.
  Definition run (old : option (list byte)) (es : list ev) : st := fold_left step es (init old).
  Definition ended (p : pc) : bool := match p with Returned | RaisedInterrupt | RaisedError | RaisedUnbound => true | _ => false end.
End SP.
Arguments st : clear implicits.
