(** Model of python/tinyfk/__init__.py:11-27: what `import tinyfk` does to the directory
    ~/.tinyfk, by any number of processes that may fail, be killed, or run at the same time. *)
From Coq Require Import String Ascii List Arith.
From Verif Require Import Base Num Pose DataStructure Urdf Kin Wrapper Py.
Import ListNotations.
Local Open Scope string_scope.

(** the two robots (__init__.py:16-17, 21-27: pr2_urdfpath, fetch_urdfpath) *)
Inductive robot := Pr2 | Fetch.

(** The directory ~/.tinyfk and the files pr2.urdf and fetch.urdf in it; [None]: no such
    file.  Not modelled: anybody else removing or writing files there. *)
Record Disk := mkDisk { d_dir : bool; d_pr2 : option string; d_fetch : option string }.
Definition no_disk : Disk := mkDisk false None None.
Definition file (d : Disk) (r : robot) : option string := match r with Pr2 => d_pr2 d | Fetch => d_fetch d end.
Definition set_file (r : robot) (c : option string) (d : Disk) : Disk :=
  match r with Pr2 => mkDisk (d_dir d) c (d_fetch d) | Fetch => mkDisk (d_dir d) (d_pr2 d) c end.

(** What the server sends for the two addresses (__init__.py:14-15).  Simplification: always
    the same texts, and with their length, so that urlretrieve notices a short answer. *)
Definition Server : Type := robot -> string.

(** Where a process is. *)
Inductive ipc :=
| I_exists                        (* :12  about to test whether the directory exists *)
| I_mkdir                         (* :13  about to create the directory *)
| I_request (r : robot)           (* :16-17  about to open the address and the file *)
| I_copy (r : robot) (n : nat)    (* :16-17  n characters of the answer are written *)
| I_done (downloaded : bool)      (* the import has returned *)
| I_raised.                       (* the import has raised an exception *)

(** A turn either succeeds, writing at most [S k] characters if it copies, or the system call
    or the connection fails. *)
Inductive turn := Go (k : nat) | Fail.

(** [n] zero bytes *)
Fixpoint zeros (n : nat) : string := match n with O => "" | S n' => String "000" (zeros n') end.
(** writing [b] at offset [n] of a file: a gap is filled with zeros, what follows stays *)
Definition write_at (n : nat) (b c : string) : string :=
  substring 0 n c ++ zeros (n - String.length c) ++ b ++
  substring (n + String.length b) (String.length c - (n + String.length b)) c.

(** One turn of a process.  urlretrieve (CPython, urllib/request.py) opens the address,
    then the file with mode "wb", which creates or empties it, then copies block by block. *)
Definition istep (T : Server) (d : Disk) (p : ipc) (t : turn) : Disk * ipc :=
  match t with
  | Fail => (d, match p with I_done b => I_done b | _ => I_raised end)
  | Go k =>
      match p with
      | I_exists => (d, if d_dir d then I_done false else I_mkdir)
      | I_mkdir => if d_dir d then (d, I_raised) else (mkDisk true (d_pr2 d) (d_fetch d), I_request Pr2)
      | I_request r => (set_file r (Some "") d, I_copy r 0)
      | I_copy r n =>
          if Nat.ltb n (String.length (T r)) then
            let b := substring n (S k) (T r) in
            (set_file r (option_map (write_at n b) (file d r)) d, I_copy r (n + String.length b))
          else (d, match r with Pr2 => I_request Fetch | Fetch => I_done true end)
      | I_done b => (d, I_done b)
      | I_raised => (d, I_raised)
      end
  end.

(** A history: processes start to import, and take turns.  A process that is killed gets no
    more turns. *)
Inductive ievent := E_import | E_turn (i : nat) (t : turn).
Definition ievent_step (T : Server) (e : ievent) (s : Disk * list ipc) : Disk * list ipc :=
  match e with
  | E_import => (fst s, (snd s ++ [I_exists])%list)
  | E_turn i t =>
      match nth_error (snd s) i with
      | None => s
      | Some p => let (d, p') := istep T (fst s) p t in (d, list_set (snd s) i p')
      end
  end.
Fixpoint history (T : Server) (es : list ievent) (s : Disk * list ipc) : Disk * list ipc :=
  match es with [] => s | e :: t => history T t (ievent_step T e s) end.

(** __init__.py:47-56, __init__ with both arguments; [read] is what open(...).read() finds.
    Line 48 asserts that exactly one is given; an empty xml_text makes line 50 call
    open(None).  An empty file reaches RobotModel, which raises (tinyfk.cpp:17-19).
    Simplification: the text read is the bytes of the file. *)
Definition py_new `{A : Arith} (tinyxml : string -> option (list xml)) (read : string -> option string)
    (urdfpath xml_text : option string) : M World nat :=
  match urdfpath, xml_text with
  | Some path, None =>
      match read path with
      | None => throw OSError
      | Some t => if String.eqb t "" then throw RuntimeError else py_init tinyxml t
      end
  | None, Some t => py_init tinyxml t
  | _, _ => throw AssertionError
  end.
