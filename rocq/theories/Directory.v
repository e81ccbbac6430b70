(** * Model of the functions of fileio.py that look into a directory

    The file system is a parameter: [walk] is the list of file names that the first step of [os.walk(dir_name)] yields ([None] if it yields
    nothing: the directory does not exist or cannot be read); [contents f] is the outcome of the preflibtools parser for the file [f] of
    this directory. *)
From Coq Require Import String.
From Coq Require Import List Arith Bool ZArith.
From Verif Require Import Prelude Misc Preferences FileIO.
Import ListNotations.
Local Open Scope string_scope.
Open Scope nat_scope.
Local Open Scope list_scope.

(** the outcome of a function that can also raise FileNotFoundError *)
Inductive outcome (A : Type) := Returns (a : A) | FileNotFoundError | Raises (e : exn).
Arguments Returns {A} _.
Arguments FileNotFoundError {A}.
Arguments Raises {A} _.

(** [f.endswith(extension)] *)
Definition endswith (f extension : string) : bool :=
  (String.length extension <=? String.length f) &&
  String.eqb (substring (String.length f - String.length extension) (String.length extension) f) extension.
(** fileio.py 31-62, [get_file_names]; an empty list of extensions is falsy *)
Definition get_file_names (walk : option (list string)) (filename_extensions : option (list string)) : outcome (list string) :=
  let files := match walk with Some filenames => filenames | None => [] end in
  if List.length files =? 0 then FileNotFoundError
  else
    let files := match filename_extensions with
                 | None | Some [] => files
                 | Some l => filter (fun f => existsb (endswith f) l) files
                 end in
    Returns (sort_str files).

(** fileio.py 163-202, [read_preflib_files_from_dir]; [os.path.join(dir_name, f)] names the file [f] of the directory *)
Definition PREFLIB_EXTENSIONS : list string := [".soi"; ".toi"; ".soc"; ".toc"; ".cat"].
Fixpoint read_files (from_ordinal : instance Z -> option Z -> instance Z) (contents : string -> result parsed) (top_ranks setsize : option Z)
         (files : list string) (profiles : list (string * profile)) : outcome (list (string * profile)) :=
  match files with
  | [] => Returns profiles
  | f :: r => match read_preflib_file from_ordinal (contents f) top_ranks setsize false with
              | Ok p => read_files from_ordinal contents top_ranks setsize r (put f p profiles)
              | Err e => Raises e
              end
  end.
Definition read_preflib_files_from_dir (from_ordinal : instance Z -> option Z -> instance Z) (walk : option (list string))
           (contents : string -> result parsed) (top_ranks setsize : option Z) : outcome (list (string * profile)) :=
  match get_file_names walk (Some PREFLIB_EXTENSIONS) with
  | Returns files => read_files from_ordinal contents top_ranks setsize files []
  | FileNotFoundError => FileNotFoundError
  | Raises e => Raises e
  end.
