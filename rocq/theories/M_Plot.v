(** Model of the plotting callback (src/lambdapic/callback/plot.py).  What matplotlib does is modelled as far as the callback uses
    it: the registry of colour maps (ColormapRegistry.register and unregister), imshow with an extent and origin='lower', savefig.
    Simplifications: exact numbers; colours, colour bars, titles and the norm are left out; imshow is taken to draw arrays of two
    dimensions only (it would also take images with one, three or four channels). *)
From Verif Require Import Base.
From Coq Require Import QArith Qround String.
Local Open Scope string_scope.
Local Open Scope list_scope.
Local Open Scope nat_scope.

(** an array: its shape, and its values *)
Record array := mkArr { dims : list nat; val : nat -> nat -> Q }.
(** what stands under 'field': a name, an array, or anything else *)
Inductive source := Named (f : string) | Array (a : array) | Other.
(** a field configuration: the keys 'field', 'scale' and 'cmap', each possibly absent *)
Record config := mkCfg { c_field : option source; c_scale : option Q; c_cmap : option string }.
Inductive outcome := Done | ValueError | TypeError | AttributeError.

(** plot.py:70-73 *)
Definition validate (cs : list config) : outcome :=
  if forallb (fun c => match c_field c with Some _ => true | None => false end) cs then Done else ValueError.

(** plot.py:138-181 *)
Definition cmaps : list string := ["bwr_alpha"; "gold_alpha"; "grey_alpha"; "red_alpha"; "blue_alpha"; "gwb_alpha"].
Definition mem (n : string) (l : list string) : bool := existsb (String.eqb n) l.
(** plot.py:183-186; register raises for a name that is known (what was registered before the exception stays) *)
Fixpoint register (ns reg : list string) : outcome * list string :=
  match ns with
  | [] => (Done, reg)
  | n :: ns' => if mem n reg then (ValueError, reg) else register ns' (n :: reg)
  end.
(** plot.py:188-191; unregister of an unknown name does nothing *)
Definition drop (n : string) (reg : list string) : list string := filter (fun m => negb (String.eqb m n)) reg.
Definition unregister (ns reg : list string) : list string := fold_left (fun r n => drop n r) ns reg.

(** an overlay of the picture: the colour at column and row of the image, its size, the extent *)
Record overlay := mkOv { o_nx : nat; o_ny : nat; o_lx : Q; o_ly : Q; o_img : nat -> nat -> Q; o_cmap : string }.
(** value shown at a point of the axes: the extent is divided evenly, the first row is at the bottom *)
Definition pixel (n : nat) (len x : Q) : Z := Qfloor (x * inject_Z (Z.of_nat n) / len).
Definition shown (o : overlay) (x y : Q) : Q := o_img o (Z.to_nat (pixel (o_ny o) (o_ly o) y)) (Z.to_nat (pixel (o_nx o) (o_lx o) x)).

(** plot.py:100-114: rows of the image are the second index of the array (the transpose) *)
Definition imshow (lx ly : Q) (reg : list string) (a : array) (c : config) : overlay + outcome :=
  let scale := match c_scale c with Some s => s | None => 1%Q end in
  let cmap := match c_cmap c with Some m => m | None => "viridis" end in
  match dims a with
  | [nx; ny] => if mem cmap reg then inl (mkOv nx ny lx ly (fun r k => (val a k r * scale)%Q) cmap) else inr ValueError
  | _ => inr TypeError
  end.
Fixpoint draw (lx ly : Q) (reg : list string) (l : list (array * config)) : list overlay + outcome :=
  match l with
  | [] => inl []
  | (a, c) :: l' => match imshow lx ly reg a c with
                    | inr e => inr e
                    | inl o => match draw lx ly reg l' with inr e => inr e | inl os => inl (o :: os) end
                    end
  end.

Section Call.
(** get_fields(sim, [f])[0] on this process at this step (None: AttributeError) *)
Variable get_fields : string -> option array.
(** plot.py:82-93 *)
Fixpoint field_data (cs : list config) : list (array * config) + outcome :=
  match cs with
  | [] => inl []
  | c :: cs' =>
      match (match c_field c with
             | Some (Named f) => match get_fields f with Some a => inl a | None => inr AttributeError end
             | Some (Array a) => inl a
             | Some Other => inr TypeError
             | None => inr ValueError end) with
      | inr e => inr e
      | inl a => match field_data cs' with inr e => inr e | inl l => inl ((a, c) :: l) end
      end
  end.
End Call.

(** the interpreter of one process: the colour maps known to matplotlib, and the pictures written so far, latest first *)
Record session := mkSes { known : list string; pictures : list (nat * list overlay) }.
(** a call: rank, itime, Lx, Ly, the fields at that moment, the configurations *)
Record call := mkCall { rank : nat; itime : nat; lx : Q; ly : Q; fields : string -> option array; configs : list config }.
(** _call, plot.py:77-135 *)
Definition plot (k : call) (s : session) : outcome * session :=
  match field_data (fields k) (configs k) with
  | inr e => (e, s)
  | inl data =>
      if 0 <? rank k then (Done, s)
      else match register cmaps (known s) with
           | (Done, reg) =>
               match draw (lx k) (ly k) reg data with
               | inr e => (e, mkSes reg (pictures s))
               | inl os => (Done, mkSes (unregister cmaps reg) ((itime k, os) :: pictures s))
               end
           | (e, reg) => (e, mkSes reg (pictures s))
           end
  end.
(** calls one after the other in one interpreter; an exception ends the run it is raised in, not the interpreter
    (cli/auto_reload.py:49-77 goes on with the next version of the script, as does an interactive session) *)
Definition plots (ks : list call) (s : session) : list outcome * session :=
  fold_left (fun acc k => let r := plot k (snd acc) in (fst acc ++ [fst r], snd r)) ks ([], s).
