(** Saving maps to files and loading them: /repo/library/cpp/src/io/file_conversions.cc (lines "fc:"), on top of the
    streams of M_Stream.v. Unlike there, writes may fail and the program may be interrupted at any moment.
    A file path is a number; 0 is the empty path. A file system maps paths to contents; directories, permissions and
    symbolic links are not modelled (an open that fails for such a reason is chosen by the environment). *)
From Verif Require Import Base M_Num M_Stream.

Definition path := Z.
Definition fs := path -> option (list Z).
Definition fs_put (d : fs) (p : path) (l : list Z) : fs := fun q => if q =? p then Some l else d q.

(** What the environment lets happen during one call of std::ofstream::write or close:
    the first [n] buffered bytes reach the file, and the rest stays in the buffer (on close: everything is written);
    or an error occurs (badbit or failbit is set), after which the file contains [l], about which nothing is known: a
    failed write may have been carried out in part, and closing the file tries to write the buffer again;
    or the program is killed after the first [n] buffered bytes have reached the file. *)
Inductive wres := WOk (n : nat) | WErr (l : list Z) | WCrash (n : nat).
(** std::ofstream: the contents of the file, the bytes in the buffer, good() *)
Record ofile := OF { odisk : list Z; obuf : list Z; ogood : bool }.
(** std::ofstream::write; does nothing if the stream is not good. [inr l]: the program was killed, and the file contains [l]. *)
Definition owrite (c : list Z) (r : wres) (o : ofile) : ofile + list Z :=
  match r with
  | WCrash n => inr (if ogood o then odisk o ++ firstn n (obuf o ++ c) else odisk o)
  | WOk n => inl (if ogood o then OF (odisk o ++ firstn n (obuf o ++ c)) (skipn n (obuf o ++ c)) true else o)
  | WErr l => inl (if ogood o then OF l [] false else o)
  end.
(** The calls of write made while the map is serialized: [evs] gives the length of each and what happens during it; the
    rest of the bytes is written by one last, successful call. Every way to divide the bytes into calls is covered. *)
Fixpoint owrites (evs : list (nat * wres)) (l : list Z) (o : ofile) : ofile + list Z :=
  match evs with
  | [] => owrite l (WOk 0) o
  | (k, r) :: evs' => match owrite (firstn k l) r o with
                      | inl o' => owrites evs' (skipn k l) o'
                      | inr d => inr d
                      end
  end.
(** std::ofstream::close, fc:27 *)
Definition oclose (r : wres) (o : ofile) : ofile + list Z :=
  match r with
  | WOk _ => inl (OF (odisk o ++ obuf o) [] (ogood o))
  | WErr l => inl (OF l [] false)
  | WCrash n => inr (odisk o ++ firstn n (obuf o))
  end.

(** Choices of the environment during one mapToFile: does the file open, the calls of write, the call of close *)
Record wenv := WE { e_open : bool; e_writes : list (nat * wres); e_close : wres }.
(** ... and during one fileToMap: does the file open, and after how many bytes a read error occurs, if any *)
Record renv := RE { r_open : bool; r_limit : option nat }.

Inductive sres := Returned (b : bool) (d : fs) | Crashed (d : fs).
Inductive lres {V : Type} := LdAbort | LdKept | LdNull | LdTrue (m : anymap (V := V)).

Section FILE.
Context {V : Type} (N : num V) (enc : V -> Z) (dec : Z -> V).
Notation any := (anymap (V := V)).

(** mapToFile, fc:6-29. None: out of fuel. Opening truncates the file (openmode out, fc:14-15). If mapToStream returns
    false (fc:22-24), because of the map's type or because the stream is not good (good() is returned,
    stream_conversions.cc:118, 210, 353, 509), the file is closed by the destructor; nothing is left in the buffer that could change the
    file in a way not covered by [WErr]. *)
Definition mapToFile (fuel : nat) (a : any) (p : path) (e : wenv) (d : fs) : option sres :=
  if p =? 0 then Some (Returned false d) else
  if negb (e_open e) then Some (Returned false d) else
  match map_save N enc fuel a with
  | SFuel => None
  | SFalse => Some (Returned false (fs_put d p []))
  | STrue l => match owrites (e_writes e) l (OF [] [] true) with
               | inr c => Some (Crashed (fs_put d p c))
               | inl o => if negb (ogood o) then Some (Returned false (fs_put d p (odisk o))) else
                          match oclose (e_close e) o with
                          | inr c => Some (Crashed (fs_put d p c))
                          | inl o' => Some (Returned (ogood o') (fs_put d p (odisk o')))
                          end
               end
  end.

(** fileToMap, fc:31-55. A read error makes the stream not good, like the end of the file. [LdKept], [LdNull]: false is
    returned, and the caller's pointer is left alone or set to null. *)
Definition fileToMap (fuel : nat) (now : Z) (p : path) (r : renv) (d : fs) : option lres :=
  if p =? 0 then Some LdKept else
  if negb (r_open r) then Some LdKept else
  match d p with
  | None => Some LdKept
  | Some l => match map_load N dec fuel now (IS (match r_limit r with Some n => firstn n l | None => l end) true) with
              | LFuel => None
              | LAbort => Some LdAbort
              | LKept => Some LdKept
              | LNull => Some LdNull
              | LOk m _ => Some (LdTrue m)
              end
  end.

(** A sequence of such calls, by one program or several. After a crash, the next call is made by a new program. *)
Inductive fop := FSave (a : any) (p : path) (e : wenv) | FLoad (now : Z) (p : path) (r : renv).
Inductive fans := ASaved (b : bool) | ACrashed | ALoaded (m : any) | ANotLoaded | AAborted.
Definition fstep (fuel : nat) (o : fop) (d : fs) : option (fans * fs) :=
  match o with
  | FSave a p e => match mapToFile fuel a p e d with
                   | None => None
                   | Some (Returned b d') => Some (ASaved b, d')
                   | Some (Crashed d') => Some (ACrashed, d')
                   end
  | FLoad now p r => match fileToMap fuel now p r d with
                     | None => None
                     | Some LdAbort => Some (AAborted, d)
                     | Some LdKept | Some LdNull => Some (ANotLoaded, d)
                     | Some (LdTrue m) => Some (ALoaded m, d)
                     end
  end.
Fixpoint frun (fuel : nat) (ops : list fop) (d : fs) : option (list fans * fs) :=
  match ops with
  | [] => Some ([], d)
  | o :: ops' => match fstep fuel o d with
                 | None => None
                 | Some (x, d') => match frun fuel ops' d' with None => None | Some (l, d'') => Some (x :: l, d'') end
                 end
  end.
End FILE.
