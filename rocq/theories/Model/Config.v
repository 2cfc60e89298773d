(** galpy/util/config.py on top of configparser.ConfigParser.

    A configuration is its DEFAULT section and its other sections.  Files are modelled by the configuration they parse to; files that do not
    parse (an exception from configparser) are not modelled.  Interpolation of % (configparser.BasicInterpolation) is a parameter. *)
From Coq Require Import List Bool String.
Import ListNotations.
Open Scope string_scope.

Definition table := list (string * string).
Record config := mkConfig { defaults : table; sections : list (string * table) }.
Fixpoint lookup {A} (k : string) (l : list (string * A)) : option A :=
  match l with [] => None | (k', v) :: l => if String.eqb k k' then Some v else lookup k l end.
Definition is_some {A} (o : option A) : bool := match o with Some _ => true | None => false end.

(** 8-19 *)
Definition default_configuration : list (string * table) :=
  [("normalization", [("ro", "8."); ("vo", "220.")]);
   ("astropy", [("astropy-units", "False"); ("astropy-coords", "True")]);
   ("plot", [("seaborn-bovy-defaults", "False")]);
   ("warnings", [("verbose", "False")]);
   ("version-check", [("do-check", "True"); ("check-non-interactive", "True"); ("check-non-interactive-every", "1");
                      ("last-non-interactive-check", "2000-01-01")])].

Inductive result (A : Type) := Ok (a : A) | InterpolationError | ValueError.
Arguments Ok {A}. Arguments InterpolationError {A}. Arguments ValueError {A}.
Definition bind {A B} (r : result A) (f : A -> result B) : result B :=
  match r with Ok a => f a | InterpolationError => InterpolationError | ValueError => ValueError end.
Fixpoint sequence {A} (l : list (result A)) : result (list A) :=
  match l with [] => Ok [] | r :: l => bind r (fun a => bind (sequence l) (fun l => Ok (a :: l))) end.

(** ConfigParser.has_section, has_option (options of DEFAULT count) and the raw value *)
Definition has_section (c : config) (s : string) : bool := is_some (lookup s (sections c)).
Definition raw (c : config) (s k : string) : option string :=
  match lookup s (sections c) with
  | None => None
  | Some t => match lookup k t with Some v => Some v | None => lookup k (defaults c) end
  end.
Definition has_option (c : config) (s k : string) : bool := is_some (raw c s k).

(** write_config, 53-62: open(filename, "w") empties the file and configuration.write fills it; an exception in either only warns.  A write that
    fails half-way is modelled as leaving the file empty. *)
Inductive outcome := Written | CannotOpen | FailedAfterOpen.
Definition write_config (w : outcome) (file : option config) (c : config) : option config :=
  match w with Written => Some c | CannotOpen => file | FailedAfterOpen => Some (mkConfig [] []) end.

Section Interp.
  (** before_get: the value with % references replaced, or an error; before_set: whether a value may be stored *)
  Variable before_get : config -> string -> string -> option string.
  Variable before_set : string -> bool.
  (** ConfigParser.get of an option that exists, ConfigParser.set into an existing section *)
  Definition get (c : config) (s k : string) : result string :=
    match raw c s k with
    | None => InterpolationError
    | Some v => match before_get c s v with Some v => Ok v | None => InterpolationError end
    end.
  (** check_config, 23-31 *)
  Definition check_config (c : config) : bool :=
    forallb (fun st => andb (has_section c (fst st)) (forallb (fun kv => has_option c (fst st) (fst kv)) (snd st))) default_configuration.
  (** fix_config, 34-50: the new parser starts empty and set() appends in this order *)
  Definition fix_value (c : option config) (s k d : string) : result string :=
    bind (match c with
          | None => Ok d
          | Some c => if negb (has_section c s) || negb (has_option c s k) then Ok d else get c s k
          end) (fun v => if before_set v then Ok v else ValueError).
  Definition fix_section (c : option config) (s : string) (t : table) : result table :=
    sequence (map (fun kv => bind (fix_value c s (fst kv) (snd kv)) (fun v => Ok (fst kv, v))) t).
  Definition fix_config (c : option config) : result config :=
    bind (sequence (map (fun st => bind (fix_section c (fst st) (snd st)) (fun t => Ok (fst st, t))) default_configuration))
         (fun l => Ok (mkConfig [] l)).
  (** The module body, 66-76: the files in the current directory and in the home directory, and what happens to the write, if there is
      one.  Returns the configuration and the two files afterwards. *)
  Definition load (w : outcome) (cwd home : option config) : result (config * (option config * option config)) :=
    let write := write_config w in
    bind (match cwd, home with
          | Some c, _ => Ok (c, (true, (cwd, home)))
          | None, Some c => Ok (c, (false, (cwd, home)))
          | None, None => bind (fix_config None) (fun c => Ok (c, (false, (cwd, write home c))))
          end)
    (fun r => let '(c, (here, (cwd, home))) := r in
      if check_config c then Ok (c, (cwd, home))
      else bind (fix_config (Some c)) (fun c => Ok (c, if here then (write cwd c, home) else (cwd, write home c)))).
End Interp.
(** set_ro, set_vo, 84-133: set of an existing option with the string form of the number *)
Fixpoint put {A} (k : string) (v : A) (l : list (string * A)) : list (string * A) :=
  match l with [] => [(k, v)] | (k', v') :: l => if String.eqb k k' then (k', v) :: l else (k', v') :: put k v l end.
Definition set_option (c : config) (s k v : string) : config :=
  match lookup s (sections c) with None => c | Some t => mkConfig (defaults c) (put s (put k v t) (sections c)) end.
Definition set_ro (c : config) (v : string) : config := set_option c "normalization" "ro" v.
Definition set_vo (c : config) (v : string) : config := set_option c "normalization" "vo" v.
(** galpy/__init__.py, 92-95: the date of the version check is recorded in the configuration as it was read (__orig__config__) *)
Definition record_check (w : outcome) (file : option config) (orig : config) (today : string) : option config :=
  write_config w file (set_option orig "version-check" "last-non-interactive-check" today).
