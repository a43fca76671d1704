(** The stopwatch and the resource monitor.
    "SC" = /repo/library/cpp/src/core/utils/time/stopwatch.cc, "SH" = /repo/library/cpp/include/wavemap/core/utils/time/stopwatch.h,
    "RC" = /repo/library/cpp/src/core/utils/profile/resource_monitor.cc,
    "RH" = /repo/library/cpp/include/wavemap/core/utils/profile/resource_monitor.h.
    Clock readings are parameters of the calls: steady_clock (/repo/library/cpp/include/wavemap/core/utils/time/time.h:7-9) counts
    nanoseconds. Durations are integers without overflow (int64 nanoseconds last 292 years). The conversion to seconds
    (time.h:12-15) and the printed tables (RC:92-116) are not modelled. *)
From Verif Require Import Base.
From Coq Require Import Ascii String.
Local Open Scope Z_scope.
Local Open Scope list_scope.

(** The calls that change a stopwatch; [t] is what the clock shows during the call *)
Inductive watch_op := Start | Stop | Reset.

(** Members, SH:74-83; the initial state is all zero *)
Record stopwatch := SW { sw_running : bool; sw_start : Z; sw_last : Z; sw_total : Z }.
Definition sw_new : stopwatch := SW false 0 0 0.
(** Stopwatch::start, SC:6-13 *)
Definition sw_do_start (t : Z) (s : stopwatch) : stopwatch :=
  if sw_running s then s else SW true t (sw_last s) (sw_total s).
(** Stopwatch::stop, SC:15-25 *)
Definition sw_do_stop (t : Z) (s : stopwatch) : stopwatch :=
  if negb (sw_running s) then s else
  let d := t - sw_start s in SW false (sw_start s) d (sw_total s + d).
(** Stopwatch::reset, SH:70 *)
Definition sw_do_reset : stopwatch := sw_new.
Definition sw_call (s : stopwatch) (e : watch_op * Z) : stopwatch :=
  match fst e with Start => sw_do_start (snd e) s | Stop => sw_do_stop (snd e) s | Reset => sw_do_reset end.
Definition sw_run (l : list (watch_op * Z)) : stopwatch := fold_left sw_call l sw_new.

(** std::timespec *)
Record timespec := TS { tv_sec : Z; tv_nsec : Z }.
(** ResourceMonitor::computeDuration, RC:118-122; the sum of seconds and nanoseconds is in nanoseconds *)
Definition computeDuration (start stop : timespec) : Z :=
  (tv_sec stop - tv_sec start) * 1000000000 + (tv_nsec stop - tv_nsec start).
(** Members, RH:143-162 *)
Record monitor := RM { rm_running : bool; rm_cpu_start : timespec; rm_wall_start : timespec;
  rm_last_cpu : Z; rm_last_wall : Z; rm_total_cpu : Z; rm_total_wall : Z }.
Definition rm_new : monitor := RM false (TS 0 0) (TS 0 0) 0 0 0 0.
(** ResourceMonitor::start, RC:18-32, with HAS_CLOCK_GETTIME; [cpu] and [wall] are what clock_gettime returns *)
Definition rm_do_start (cpu wall : timespec) (s : monitor) : monitor :=
  if rm_running s then s else
  RM true cpu wall (rm_last_cpu s) (rm_last_wall s) (rm_total_cpu s) (rm_total_wall s).
(** ResourceMonitor::stop, RC:34-57 *)
Definition rm_do_stop (cpu wall : timespec) (s : monitor) : monitor :=
  if negb (rm_running s) then s else
  let dc := computeDuration (rm_cpu_start s) cpu in
  let dw := computeDuration (rm_wall_start s) wall in
  RM false (rm_cpu_start s) (rm_wall_start s) dc dw (rm_total_cpu s + dc) (rm_total_wall s + dw).
(** ResourceMonitor::reset, RH:140 *)
Definition rm_do_reset : monitor := rm_new.
Definition rm_call (s : monitor) (e : watch_op * (timespec * timespec)) : monitor :=
  let '(op, (cpu, wall)) := e in
  match op with Start => rm_do_start cpu wall s | Stop => rm_do_stop cpu wall s | Reset => rm_do_reset end.
Definition rm_run (l : list (watch_op * (timespec * timespec))) : monitor := fold_left rm_call l rm_new.

(** ** The text of /proc/self/status *)
Definition text := list ascii.
Definition newline : ascii := "010"%char.
(** std::getline on what is left of a file: the characters up to the next newline, which is taken away but not stored; [eof] is set when the
    end of the file is reached first; the call fails if it has extracted nothing *)
Fixpoint take_line (f : text) : text * text * bool :=
  match f with
  | [] => ([], [], true)
  | c :: f' => if Ascii.eqb c newline then ([], f', false) else let '(l, r, e) := take_line f' in (c :: l, r, e)
  end.
(** line.rfind("VmRSS", 0) == 0: the only position that is tried is 0 *)
Fixpoint starts_with (p l : text) : bool :=
  match p, l with
  | [], _ => true
  | c :: p', d :: l' => Ascii.eqb c d && starts_with p' l'
  | _ :: _, [] => false
  end.
Definition VmRSS : text := list_ascii_of_string "VmRSS".
(** The loop of RC:62-66. The result is the content of [line] and file.eof() after the loop. When the last line has no newline, the
    next getline fails and leaves eof set; [line] is then not used any more. [fuel] bounds the iterations; the file's length + 1 is enough. *)
Fixpoint find_line (fuel : nat) (f : text) : option (text * bool) :=
  match fuel with
  | O => None
  | S fuel => match f with
              | [] => Some ([], true)
              | _ => let '(l, r, e) := take_line f in
                     if starts_with VmRSS l then Some (l, e)
                     else if e then Some ([], true)
                     else find_line fuel r
              end
  end.
(** std::isspace in the C locale *)
Definition is_space (c : ascii) : bool :=
  match c with " "%char | "009"%char | "010"%char | "011"%char | "012"%char | "013"%char => true | _ => false end.
Fixpoint skip_space (l : text) : text :=
  match l with c :: l' => if is_space c then skip_space l' else l | [] => [] end.
Fixpoint take_word (l : text) : text * text :=
  match l with
  | c :: l' => if is_space c then ([], l) else let '(w, r) := take_word l' in (c :: w, r)
  | [] => ([], [])
  end.
(** iss >> std::string: a word of at least one character, after white space *)
Definition read_word (l : text) : option (text * text) :=
  match take_word (skip_space l) with ([], _) => None | (w, r) => Some (w, r) end.
Definition digit (c : ascii) : option Z :=
  let n := Z.of_nat (nat_of_ascii c) - 48 in if (0 <=? n) && (n <=? 9) then Some n else None.
(** The decimal digits at the start of the text, with the value so far and whether a digit has been seen *)
Fixpoint take_digits (acc : Z) (seen : bool) (l : text) : Z * bool * text :=
  match l with
  | c :: l' => match digit c with Some d => take_digits (10 * acc + d) true l' | None => (acc, seen, l) end
  | [] => (acc, seen, [])
  end.
Definition size_max : Z := 2 ^ 64 - 1.
Definition take_sign (l : text) : bool * text :=
  match l with "-"%char :: l' => (true, l') | "+"%char :: l' => (false, l') | _ => (false, l) end.
(** iss >> size_t (std::num_get, base 10): an optional sign and digits; a minus sign negates modulo 2^64. No digits or a value above the
    maximum is a failure. *)
Definition read_size (l : text) : option (Z * text) :=
  let '(neg, l) := take_sign (skip_space l) in
  let '(v, seen, r) := take_digits 0 false l in
  if negb seen || (size_max <? v) then None else Some (if neg then (- v) mod 2 ^ 64 else v, r).
Definition text_eqb (a b : text) : bool := if list_eq_dec ascii_dec a b then true else false.
(** ResourceMonitor::getCurrentRamUsageInKB, RC:59-90; [None] as file: it cannot be opened, so that no getline succeeds but eof is not set
    either. The outer option is the fuel of [find_line]. *)
Definition getCurrentRamUsageInKB (file : option text) : option (option Z) :=
  match match file with None => Some ([], false) | Some f => find_line (S (List.length f)) f end with
  | None => None
  | Some (line, eof) =>
    Some (if eof then None else
          match read_word line with
          | None => None
          | Some (_, r) =>
            match read_size r with
            | None => None
            | Some (ram, r) => match read_word r with
                               | None => None
                               | Some (unit, _) => if text_eqb unit (list_ascii_of_string "kB") then Some ram else None
                               end
            end
          end)
  end.
