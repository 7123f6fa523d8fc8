(** Model of the performance timers (src/lambdapic/core/utils/timer.py:32-96), of the logger's files
    (core/utils/logger.py:14-122, simulation/simulation.py:249-254) and of [lambdapic timer-stat]
    (cli/stat.py:8-61, cli/main.py:50-103).

    Simplifications: texts are ASCII; a file is the list of its lines; the measured interval is an exact rational in the
    unit of the timer and is shown rounded to one digit (ties up); [float] of a text is exact; [strip] is left out, it
    removes only blanks at the ends, which the unanchored search passes over; the main log, the formatting of the printed
    table and the colours are left out. *)
From Verif Require Import Base.
From Coq Require Import String Ascii QArith Qround.
Local Open Scope list_scope.
Local Open Scope Z_scope.
Local Open Scope string_scope.

(** ** texts *)
Definition digit (d : Z) : ascii := ascii_of_nat (48 + Z.to_nat d).
(** decimal digits of n in front of a text, least significant first; [fuel] bounds their number *)
Fixpoint dec_acc (fuel : nat) (n : Z) (tail : string) : string :=
  match fuel with
  | O => tail
  | S f => let t := String (digit (n mod 10)) tail in if (n <? 10)%Z then t else dec_acc f (n / 10) t
  end.
Definition dec (n : Z) (tail : string) : string := dec_acc (S (Z.to_nat (Z.log2 n))) n tail.

Definition digit_val (c : ascii) : option Z :=
  let k := Z.of_nat (nat_of_ascii c) in if ((48 <=? k) && (k <? 58))%Z then Some (k - 48) else None.
Definition is_digit (c : ascii) : bool := match digit_val c with Some _ => true | None => false end.
Definition is_num (c : ascii) : bool := is_digit c || Ascii.eqb c ".".

(** ** timers *)
Inductive tunit := Sec | Ms | Us | Ns.
Definition suffix (u : tunit) : string := match u with Sec => "s" | Ms => "ms" | Us => "us" | Ns => "ns" end.
(** one [with Timer(name, unit=unit): ...] that took [t_time] units; [None] is a timer without a name *)
Record timing := mkTiming { t_rank : Z; t_name : option string; t_unit : tunit; t_time : Q }.
(** the shown interval in tenths *)
Definition tenths (x : Q) : Z := Qfloor (10 * x + (1 # 2)).
Definition shown (n : Z) (tail : string) : string := dec (n / 10) (String "." (String (digit (n mod 10)) tail)).
Definition message (t : timing) : string :=
  "Rank " ++ dec (t_rank t)
    (match t_name t with
     | Some n => if n =? "" then " Completed in " else " " ++ n ++ " took "
     | None => " Completed in "
     end ++ shown (tenths (t_time t)) (suffix (t_unit t))).
(** timer.py:95: only intervals above 0.1 are logged *)
Definition is_logged (t : timing) : bool := negb (Qle_bool (t_time t) (1 # 10)).
(** logger.py:26-28: time, level, message *)
Definition line (stamp : string) (t : timing) : string := stamp ++ " | TIMER    | " ++ message t.

(** ** stat.py *)
Fixpoint has_prefix (p s : string) : option string :=
  match p, s with
  | EmptyString, _ => Some s
  | String a p', String b s' => if Ascii.eqb a b then has_prefix p' s' else None
  | _, EmptyString => None
  end.
Fixpoint contains (p s : string) : bool :=
  match has_prefix p s with
  | Some _ => true
  | None => match s with EmptyString => false | String _ s' => contains p s' end
  end.
(** [line.split('|')[-1]] *)
Fixpoint last_part (best s : string) : string :=
  match s with EmptyString => best | String c t => if Ascii.eqb c "|" then last_part t t else last_part best t end.
Fixpoint span (f : ascii -> bool) (s : string) : string * string :=
  match s with
  | String c t => if f c then let (a, b) := span f t in (String c a, b) else ("", s)
  | EmptyString => ("", "")
  end.
(** the pattern [Rank \d+ (.*?) took ([\d.]+)ms], stat.py:12: number and unit, the shortest category, the whole *)
Definition match_number (s : string) : option string :=
  let (d, r) := span is_num s in
  if d =? "" then None else match has_prefix "ms" r with Some _ => Some d | None => None end.
Definition match_time (s : string) : option string :=
  match has_prefix " took " s with Some r => match_number r | None => None end.
Fixpoint match_category (s : string) : option (string * string) :=
  match match_time s with
  | Some d => Some ("", d)
  | None =>
      match s with
      | EmptyString => None
      | String c t => if Ascii.eqb c "010" then None
                      else match match_category t with Some (n, d) => Some (String c n, d) | None => None end
      end
  end.
Definition match_here (s : string) : option (string * string) :=
  match has_prefix "Rank " s with
  | Some r => let (d, r') := span is_digit r in
              if d =? "" then None
              else match has_prefix " " r' with Some r'' => match_category r'' | None => None end
  | None => None
  end.
Fixpoint search (s : string) : option (string * string) :=
  match match_here s with
  | Some x => Some x
  | None => match s with EmptyString => None | String _ t => search t end
  end.
(** [float(...)] of digits and dots; [None] is the ValueError.  [frac]: digits after the dot so far *)
Fixpoint to_float (s : string) (acc : Z) (frac : option nat) (some : bool) : option Q :=
  match s with
  | EmptyString => if some then Some (acc # Pos.of_nat (10 ^ match frac with Some k => k | None => 0 end)) else None
  | String c t =>
      match digit_val c with
      | Some d => to_float t (10 * acc + d) (option_map S frac) true
      | None => match frac with None => to_float t acc (Some 0%nat) some | Some _ => None end
      end
  end.

(** the two dictionaries, together: category, time, count *)
Definition table := list (string * (Q * Z)).
Fixpoint tally (c : string) (x : Q) (t : table) : table :=
  match t with
  | [] => [(c, (x, 1))]
  | (c', (s, n)) :: t' => if c' =? c then (c', ((s + x)%Q, n + 1)) :: t' else (c', (s, n)) :: tally c x t'
  end.
(** [parse_log_file]; [None] is the exit after an exception *)
Fixpoint parse (lines : list string) (t : table) : option table :=
  match lines with
  | [] => Some t
  | l :: ls =>
      if contains "TIMER" l then
        match search (last_part l l) with
        | Some (c, d) => match to_float d 0 None false with Some x => parse ls (tally c x t) | None => None end
        | None => parse ls t
        end
      else parse ls t
  end.
Definition time_of (c : string) (t : table) : Q := match find (fun e => fst e =? c) t with Some (_, (x, _)) => x | None => 0%Q end.
Definition count_of (c : string) (t : table) : Z := match find (fun e => fst e =? c) t with Some (_, (_, n)) => n | None => 0 end.

(** [calculate_percentages]: (category, percentage, average) and the total *)
Definition total (t : table) : Q := fold_right (fun e s => (fst (snd e) + s)%Q) 0%Q t.
Definition rows (t : table) : list (string * (Q * Q)) :=
  map (fun e => (fst e, ((if negb (Qle_bool (total t) 0) then (fst (snd e) / total t * 100)%Q else 0%Q),
                         (if (0 <? snd (snd e))%Z then (fst (snd e) / inject_Z (snd (snd e)))%Q else 0%Q)))) t.
(** "Total TIMER events" (main.py:90) *)
Definition printed_events (t : table) : Z := Z.of_nat (List.length t).

(** ** which file is written and which is read *)
(** the log file of a simulation (the name stands for both the main file and the timer file beside it), whether it
    truncates, whether its timers are on *)
Record logcfg := mkCfg { c_file : option string; c_truncate : bool; c_timer : bool }.
(** the world: the timer files, and the process-wide logger and timer switch as the last constructed simulation left them *)
Record world := mkWorld { w_files : string -> option (list string); w_cfg : logcfg }.
Definition upd_file (f : string -> option (list string)) (k : string) (v : option (list string)) : string -> option (list string) :=
  fun k' => if k' =? k then v else f k'.
(** constructing a simulation: configure_logger and set_timer_enabled; the timer file is only touched with enable_timer *)
Definition construct (c : logcfg) (w : world) : world :=
  match c_file c, c_timer c with
  | Some f, true =>
      let old := match w_files w f with Some l => l | None => [] end in
      mkWorld (upd_file (w_files w) f (Some (if c_truncate c then [] else old))) c
  | _, _ => mkWorld (w_files w) c
  end.
(** a run of any simulation: its timers go to the sinks of the process-wide logger *)
Definition run_timers (stamp : string) (ts : list timing) (w : world) : world :=
  match c_file (w_cfg w), c_timer (w_cfg w) with
  | Some f, true =>
      let old := match w_files w f with Some l => l | None => [] end in
      mkWorld (upd_file (w_files w) f (Some (old ++ map (line stamp) (filter is_logged ts))%list)) (w_cfg w)
  | _, _ => w
  end.
(** [lambdapic timer-stat log.txt]: the timer file beside it if there is one; the main log holds no TIMER records
    (logger.py:93) *)
Definition timer_stat (f : string) (w : world) : option table :=
  match w_files w f with Some l => parse l [] | None => Some [] end.
