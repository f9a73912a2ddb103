(** Model of the dataset cache: implicit/datasets/_download.py and the get_* functions. *)
From Coq Require Import List Arith Bool.
From Verif Require Import Base.
Import ListNotations.

Section Datasets.
Context {B D : Type}.      (* bytes, parsed datasets *)

(** Files by name.  Directories are left out: os.makedirs (_download.py 17-18) is taken to succeed. *)
Definition files := nat -> option (list B).
Definition write (fs : files) (f : nat) (c : list B) : files := fun g => if g =? f then Some c else fs g.

(** What the network does during one call: the connection fails before the file is opened, or it delivers blocks and
    then ends, normally or because the connection or the process dies.  [size]: the Content-Length header. *)
Inductive net : Type :=
| Refused
| Stream (size : option nat) (blocks : list (list B)) (dies : bool).

(** _download.py 13-27 download_file: urllib's urlretrieve opens the URL, then the local file for writing under its
    final name, and writes every block as it arrives; afterwards it compares the length with the header
    (ContentTooShortError).  Every exception is given as RuntimeError; when the process dies the file stays as
    written so far and the "result" is that nothing is returned, also RuntimeError. *)
Definition download_file (fs : files) (f : nat) (n : net) : files * res unit :=
  match n with
  | Refused => (fs, Raise RuntimeError)
  | Stream size blocks dies =>
      let fs := fold_left (fun fs b => write fs f (match fs f with Some c => c ++ b | None => b end)) blocks (write fs f []) in
      if dies then (fs, Raise RuntimeError) else
      match size with
      | Some s => if length (concat blocks) <? s then (fs, Raise RuntimeError) else (fs, Ok tt)
      | None => (fs, Ok tt)
      end
  end.

(** lastfm.py 17-31 get_lastfm; the same code in movielens.py 33-45, reddit.py 26-36, sketchfab.py 26-36 and
    million_song_dataset.py 31-41.  [parse]: reading the file with h5py. *)
Definition get (parse : list B -> res D) (f : nat) (fs : files) (n : net) : files * res D :=
  let '(fs, r) := match fs f with Some _ => (fs, Ok tt) | None => download_file fs f n end in
  (fs, do _ <- r; match fs f with Some c => parse c | None => Raise FileNotFoundError end).

(** A sequence of calls, each with its own network behaviour. *)
Definition gets (parse : list B -> res D) (f : nat) (ns : list net) (fs : files) : files :=
  fold_left (fun fs n => fst (get parse f fs n)) ns fs.
End Datasets.
Arguments net : clear implicits.
Arguments files : clear implicits.
