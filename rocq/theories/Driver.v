(** The build-script entry point: protospec-build/src/lib.rs:62-104 (rustfmt, compile_spec) and the include_spec! macro (lib.rs:106-111).

    The host is what the entry point talks to: the OUT_DIR variable, the rustfmt command, and a file system.
    Simplifications: a file is named by its path's components (no symbolic links; "." and empty components dropped as
    std::path compares them, ".." kept); rustfmt's standard output is the text String::from_utf8_lossy makes of it;
    rustfmt reads its whole input before it writes (lib.rs:70-72 writes all of it before reading any output). *)
From Verif Require Import Base Tokens Ast Parse Front Program PreludeNames P_Types.
Open Scope string_scope. Open Scope Z_scope. Open Scope list_scope.

(** ** Paths (Unix) *)
Definition slash : Z := 47.
Definition text := list Z.
(** [/]-separated pieces. *)
Fixpoint pieces (cur : text) (s : text) : list text :=
  match s with
  | [] => [rev cur]
  | c :: s => if c =? slash then rev cur :: pieces [] s else pieces (c :: cur) s
  end.
Definition plain_piece (x : text) : bool := negb (name_eqb x [] || name_eqb x (bs ".")).
Definition absolute (s : text) : bool := match s with c :: _ => c =? slash | [] => false end.
(** The file a path names: whether it is absolute, and its components (std::path::Path::components). *)
Definition path_of (s : text) : bool * list text := (absolute s, filter plain_piece (pieces [] s)).

(** std::path::PathBuf::push: an absolute path replaces; otherwise a separator is added unless the buffer is empty or ends with one. *)
Definition last_slash (s : text) : bool := match rev s with c :: _ => c =? slash | [] => true end.
Definition push (dir name : text) : text :=
  if absolute name then name else if last_slash dir then dir ++ name else dir ++ [slash] ++ name.

(** ** The host *)
Inductive fmt_run := FmtMissing | FmtPipe | FmtOut (stdout : text) (status : Z).
(** What becomes of a write: the file cannot be created, the device takes only so many bytes, or it succeeds. *)
Inductive write_run := WNoCreate | WShort (k : nat) | WDone.
Definition file := (bool * list text)%type.
Record host := {
  h_out_dir : option text;
  h_rustfmt : text -> fmt_run;
  h_write : file -> write_run;
  h_files : file -> option text
}.
Fixpoint names_eqb (a b : list text) : bool :=
  match a, b with [], [] => true | x :: a, y :: b => name_eqb x y && names_eqb a b | _, _ => false end.
Definition file_eqb (a b : file) : bool := Bool.eqb (fst a) (fst b) && names_eqb (snd a) (snd b).
Definition update (fs : file -> option text) (f : file) (x : text) : file -> option text := fun g => if file_eqb f g then Some x else fs g.

(** lib.rs:62-73 rustfmt: the exit status is not looked at. *)
Definition rustfmt (h : host) (input : text) : res aerr text :=
  match h_rustfmt h input with
  | FmtMissing => Panic    (* .spawn().expect("rustfmt failed") *)
  | FmtPipe => Panic       (* write_all(..).unwrap() *)
  | FmtOut out _ => Ok out
  end.

(** std::fs::write followed by expect (lib.rs:102): create or truncate, then write. *)
Definition write_file (h : host) (path : text) (x : text) : res aerr unit * (file -> option text) :=
  let f := path_of path in
  match h_write h f with
  | WNoCreate => (Panic, h_files h)
  | WShort k => (Panic, update (h_files h) f (firstn k x))
  | WDone => (Ok tt, update (h_files h) f x)
  end.

(** lib.rs:75-104 compile_spec.  [gen] is compile_program followed by to_string ([None]: it panics); [n], [k] the analyser's recursion budget. *)
Definition compile_spec (h : host) (gen : prog -> option text) (n k : nat) (format : bool) (name spec : text) : res aerr unit * (file -> option text) :=
  match analyse prelude_env (with_prelude no_resolver) n k spec with
  | Err e => (Err e, h_files h)
  | Panic => (Panic, h_files h)
  | Hang => (Hang, h_files h)
  | Ok p =>
      match gen p with
      | None => (Panic, h_files h)
      | Some code =>
          match (if format then rustfmt h code else Ok code) with
          | Err e => (Err e, h_files h)
          | Panic => (Panic, h_files h)
          | Hang => (Hang, h_files h)
          | Ok code =>
              match h_out_dir h with
              | None => (Panic, h_files h)   (* expect("OUT_DIR env var not set") *)
              | Some dir => write_file h (push dir (name ++ bs ".rs")) code
              end
          end
      end
  end.

(** lib.rs:106-111 include_spec!: the file whose text is concat!(env!("OUT_DIR"), "/", package, ".rs"). *)
Definition include_path (dir name : text) : text := dir ++ bs "/" ++ name ++ bs ".rs".
