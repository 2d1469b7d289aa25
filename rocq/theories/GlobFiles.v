(** Model of src/utUtil/GlobFiles.cpp: collecting the files of a directory. *)
From Coq Require Import List Ascii String Bool NArith.
Import ListNotations.
Open Scope list_scope.

(** file names are lists of characters, a path (boost::filesystem::path) the list of its elements *)
Definition name := list ascii.
Definition path := list name.

(** ** boost::regex_match for the operators the patterns of this file use.
    The parsing of the pattern text is not modelled: the four patterns are given as trees. *)
Inductive re : Type := Empty | Eps | Any | Chr (c : ascii) | Cat (r s : re) | Alt (r s : re) | Star (r : re).
Fixpoint nullable (r : re) : bool :=
  match r with Empty | Any | Chr _ => false | Eps | Star _ => true | Cat r s => nullable r && nullable s | Alt r s => nullable r || nullable s end.
Fixpoint deriv (c : ascii) (r : re) : re :=
  match r with
  | Empty | Eps => Empty
  | Any => Eps
  | Chr d => if Ascii.eqb c d then Eps else Empty
  | Cat r s => if nullable r then Alt (Cat (deriv c r) s) (deriv c s) else Cat (deriv c r) s
  | Alt r s => Alt (deriv c r) (deriv c s)
  | Star r => Cat (deriv c r) (Star r)
  end.
Fixpoint regex_match (r : re) (s : name) : bool := match s with [] => nullable r | c :: s => regex_match (deriv c r) s end.
Fixpoint literal (s : name) : re := match s with [] => Eps | c :: s => Cat (Chr c) (literal s) end.
Fixpoint one_of (l : list name) : re := match l with [] => Empty | [x] => literal x | x :: l => Alt (literal x) (one_of l) end.
Definition str (s : string) : name := list_ascii_of_string s.
(** ".*\\.(a|b|...)" *)
Definition with_extension (l : list name) : re := Cat (Star Any) (Cat (Chr ".") (one_of l)).

(** enum FilePattern, GlobFiles.h:44-50; any other value leaves the pattern text empty *)
Inductive pattern : Type := Directories | Images | Calibrations | BoostBinary | OtherPattern.
(** the pattern texts, GlobFiles.cpp:93-101 *)
Definition pattern_re (p : pattern) : re :=
  match p with
  | Images => with_extension (map str ["jpg"; "JPG"; "png"; "PNG"; "bmp"; "BMP"]%string)
  | Calibrations => with_extension (map str ["cal"]%string)
  | BoostBinary => with_extension (map str ["BoostBinary"]%string)
  | Directories | OtherPattern => Eps
  end.

(** ** The file system: what exists() and is_directory() say about a path, and the entries of a directory in the order of the directory_iterator *)
Inductive kind : Type := Missing | File | Directory.
Record entry : Type := Entry { e_name : name; e_kind : kind }.

(** operator< of std::string and of paths (element-wise lexicographic) *)
Fixpoint name_cmp (a b : name) : comparison :=
  match a, b with
  | [], [] => Eq | [], _ => Lt | _, [] => Gt
  | x :: a, y :: b => match N.compare (N_of_ascii x) (N_of_ascii y) with Eq => name_cmp a b | c => c end
  end.
Fixpoint path_cmp (a b : path) : comparison :=
  match a, b with
  | [], [] => Eq | [], _ => Lt | _, [] => Gt
  | x :: a, y :: b => match name_cmp x y with Eq => path_cmp a b | c => c end
  end.
(** std::list::sort, 71: any stable sort *)
Fixpoint insert (p : path) (l : list path) : list path := match l with [] => [p] | q :: l => match path_cmp p q with Gt => q :: insert p l | _ => p :: q :: l end end.
Fixpoint sort (l : list path) : list path := match l with [] => [] | p :: l => insert p (sort l) end.

(** the entries the loop of 49-68 appends: files whose name matches, directories on request; missing ones (dangling links) never *)
Definition selected (ext : re) (globDirectories : bool) (e : entry) : bool :=
  match e_kind e with File => regex_match ext (e_name e) | Directory => globDirectories | Missing => false end.
(** globFiles, 39-88. None stands for the exception; on success the new contents of files *)
Definition glob (dir : path) (k : kind) (listing : list entry) (ext : re) (globDirectories : bool) (files : list path) : option (list path) :=
  let out := match k with
    | Directory => Some (sort (files ++ map (fun e => dir ++ [e_name e]) (filter (selected ext globDirectories) listing)))
    | File => Some (files ++ [dir])
    | Missing => None
    end in
  match out with Some [] => None | o => o end.
(** globFiles with a FilePattern, 90-104 *)
Definition glob_pattern (dir : path) (k : kind) (listing : list entry) (p : pattern) (files : list path) : option (list path) :=
  match p with Directories => glob dir k listing (pattern_re p) true files | _ => glob dir k listing (pattern_re p) false files end.
