(** The search path of the namespace of extensions, glass/ext/__init__.py. *)
From Coq Require Import String Ascii.
From Verif Require Import Base.
Local Open Scope string_scope.

(** [name.partition(".")] as used in glass/ext/__init__.py line 29: the text
    before the first dot, the dot, and the text after it; without a dot the
    last two are empty. *)
Fixpoint partition_dot (s : string) : string * string * string :=
  match s with
  | EmptyString => ("", "", "")
  | String c rest =>
      if Ascii.eqb c "."%char then ("", ".", rest)
      else let '(a, d, b) := partition_dot rest in (String c a, d, b)
  end.

(** The last character of a text, used by [os.path.join]. *)
Fixpoint last_char (s : string) : option ascii :=
  match s with
  | EmptyString => None
  | String c EmptyString => Some c
  | String _ rest => last_char rest
  end.

(** [os.path.join(p, m)] with two arguments, glass/ext/__init__.py line 34, as
    the standard library defines it on POSIX systems: an absolute second part
    replaces the first; no second separator after a first part that is empty
    or ends with one. *)
Definition path_join (p m : string) : string :=
  match m with
  | String "/"%char _ => m
  | _ => match last_char p with
         | None => m
         | Some "/"%char => p ++ m
         | Some _ => p ++ "/" ++ m
         end
  end.

(** What the interpreter and the disk say. [sys_path] is [sys.path];
    [portions d n] are the directories that the importer of the entry [d] finds
    for the package [n] (empty when it finds none); [pkg_lines d n] are the
    lines of the file [n.pkg] in [d], without blank lines and comments (empty
    when there is no such file); [isdir] is [os.path.isdir]. Entries of
    [sys.path] that are not texts are left out, since [extend_path] skips them. *)
Record system := {
  sys_path : list string;
  portions : string -> string -> list string;
  pkg_lines : string -> string -> list string;
  isdir : string -> bool
}.

(** [if portion not in path: path.append(portion)] for the portions in turn,
    in [pkgutil.extend_path] called by glass/ext/__init__.py line 34. *)
Fixpoint add_portions (path ps : list string) : list string :=
  match ps with
  | [] => path
  | p :: rest =>
      add_portions (if existsb (String.eqb p) path then path else (path ++ [p])%list) rest
  end.

(** [pkgutil.extend_path(path, pkg)] called by glass/ext/__init__.py line 34.
    The name [pkg] has no dot here, so that the search path is [sys.path]; the
    case where [path] is not a list is left out. *)
Fixpoint extend_along (sys : system) (dirs path : list string) (pkg : string) : list string :=
  match dirs with
  | [] => path
  | d :: rest =>
      extend_along sys rest
        ((add_portions path (portions sys d pkg) ++ pkg_lines sys d pkg)%list) pkg
  end.
Definition pkgutil_extend_path (sys : system) (path : list string) (pkg : string) :=
  extend_along sys (sys_path sys) path pkg.

(** [_extend_path], glass/ext/__init__.py lines 13-36. *)
Definition extend_path (sys : system) (path : list string) (name : string) : list string :=
  let '(pkg, _, mod_) := partition_dot name in
  filter (isdir sys) (map (fun p => path_join p mod_) (pkgutil_extend_path sys path pkg)).
