(* flut/filesystem.cpp over a model of a POSIX file system: directories and
   files, without links, permissions or limits.  The
   branch for other compilers than MSVC is modelled, and copy_file of MSVC. *)
From Verif Require Import Model.Base Model.StdString Model.Strings Model.Number Model.Path.
Local Open Scope Z_scope.

Inductive node := Dir | File (content : str).
(* what there is under an absolute name, a list of components *)
Definition fs := list str -> option node.
Definition name_dec : forall a b : list str, {a = b} + {a <> b} := list_eq_dec (list_eq_dec ascii_dec).
Definition put (s : fs) (k : list str) (n : node) : fs := fun k' => if name_dec k' k then Some n else s k'.

(* the system's reading of a path *)
Definition SLASH : ascii := "/"%char.
Fixpoint components (p : str) : list str :=
  match p with
  | [] => [[]]
  | c :: p' =>
    if Ascii.eqb c SLASH then [] :: components p'
    else match components p' with x :: l => (c :: x) :: l | [] => [[c]] end
  end.
Definition walk (k : list str) (c : str) : list str :=
  if str_eqb c [] || str_eqb c ["."%char] then k
  else if str_eqb c ["."; "."]%char then removelast k
  else k ++ [c].
(* every component is looked up in a directory *)
Definition enter (s : fs) (o : option (list str)) (c : str) : option (list str) :=
  match o with Some k => match s k with Some Dir => Some (walk k c) | _ => None end | None => None end.
Definition lookup (cwd : list str) (s : fs) (p : str) : option (list str) :=
  fold_left (enter s) (components p) (Some (match p with c :: _ => if Ascii.eqb c SLASH then [] else cwd | [] => cwd end)).
Definition stat (cwd : list str) (s : fs) (p : str) : option node :=
  match cstr p with
  | [] => None
  | p => match lookup cwd s p with Some k => s k | None => None end
  end.
(* mkdir: slashes at the end are ignored, the folder holding it must exist *)
Fixpoint drop_slashes (p : str) : str := match p with c :: p' => if Ascii.eqb c SLASH then drop_slashes p' else p | [] => [] end.
Definition strip (p : str) : str := rev (drop_slashes (rev p)).
Definition mkdir (cwd : list str) (s : fs) (p : str) : bool * fs :=
  match strip (cstr p) with
  | [] => (false, s)
  | p => match lookup cwd s p with
         | Some k => match s k with Some _ => (false, s) | None => (true, put s k Dir) end
         | None => (false, s)
         end
  end.
(* opening a stream to read; a directory can be opened but not read *)
Definition open_read (cwd : list str) (s : fs) (p : str) : bool := match stat cwd s p with Some _ => true | None => false end.
Definition read_all (cwd : list str) (s : fs) (p : str) : str := match stat cwd s p with Some (File c) => c | _ => [] end.
(* opening a stream to write makes the file or empties it, and gives its name *)
Definition open_write (cwd : list str) (s : fs) (p : str) : option (list str) * fs :=
  match cstr p with
  | [] => (None, s)
  | p => match lookup cwd s p with
         | Some k => match s k with Some Dir => (None, s) | _ => (Some k, put s k (File [])) end
         | None => (None, s)
         end
  end.

(* file_exists, folder_exists (flut/filesystem.cpp:89-109) *)
Definition file_exists := open_read.
Definition folder_exists (cwd : list str) (s : fs) (p : str) : bool := match stat cwd s p with Some Dir => true | _ => false end.

(* copy_file (flut/filesystem.cpp:60-76): both streams are open before anything
   is copied *)
Definition copy_file (cwd : list str) (s : fs) (from to : str) (overwrite : bool) : bool * fs :=
  if overwrite || negb (file_exists cwd s to) then
    let src := open_read cwd s from in
    match open_write cwd s to with
    | (Some k, s1) => if src then (true, put s1 k (File (read_all cwd s1 from))) else (false, s1)
    | (None, s1) => (false, s1)
    end
  else (false, s).
(* the Windows function CopyFile( from, to, fail_if_exists ), as documented *)
Definition CopyFile (cwd : list str) (s : fs) (from to : str) (fail_if_exists : bool) : bool * fs :=
  match stat cwd s from, stat cwd s to with
  | Some (File c), Some (File _) =>
    if fail_if_exists then (false, s)
    else match open_write cwd s to with
         | (Some k, _) => match lookup cwd s (cstr from) with
                          | Some k' => if name_dec k k' then (false, s) else (true, put s k (File c))
                          | None => (false, s)
                          end
         | (None, _) => (false, s)
         end
  | Some (File c), None => match open_write cwd s to with (Some k, _) => (true, put s k (File c)) | (None, _) => (false, s) end
  | _, _ => (false, s)
  end.
(* copy_file on MSVC (flut/filesystem.cpp:63) *)
Definition copy_file_msvc (cwd : list str) (s : fs) (from to : str) (overwrite : bool) : bool * fs := CopyFile cwd s from to overwrite.

(* create_directories (flut/filesystem.cpp:111-122); fuel bounds the depth *)
Fixpoint create_directories (fuel : nat) (cwd : list str) (s : fs) (folder : str) : res (bool * fs) :=
  match fuel with
  | O => OutOfFuel
  | S fuel' =>
    let* s1 :=
      if has_parent_path folder then
        let* par := parent_path folder in
        if folder_exists cwd s par then Ok s
        else let* r := create_directories fuel' cwd s par in Ok (snd r)
      else Ok s in
    Ok (mkdir cwd s1 folder)
  end.
(* the names create_unique_folder tries (flut/filesystem.cpp:130-131) *)
Definition candidate (folder : str) (i : Z) : str :=
  if 0 <? i then folder ++ [" "; "("]%char ++ dec i ++ [")"]%char else folder.
(* create_unique_folder (flut/filesystem.cpp:124-139) *)
Fixpoint unique_loop (fuel : nat) (cwd : list str) (s : fs) (folder : str) (i max : Z) : res (str * fs) :=
  match fuel with
  | O => OutOfFuel
  | S fuel' =>
    if i <? max then
      let u := candidate folder i in
      let* r := if folder_exists cwd s u then Ok (false, s) else create_directories (S (length u)) cwd s u in
      if fst r then Ok (u, snd r) else unique_loop fuel' cwd (snd r) folder (i + 1) max
    else Throw
  end.
Definition create_unique_folder (cwd : list str) (s : fs) (folder : str) (max_attempts : Z) : res (str * fs) :=
  unique_loop (S (Z.to_nat max_attempts)) cwd s folder 0 max_attempts.
(* load_string (flut/filesystem.cpp:141-154) *)
Definition load_string (cwd : list str) (s : fs) (p : str) : res str :=
  if open_read cwd s p then Ok (read_all cwd s p) else Throw.
