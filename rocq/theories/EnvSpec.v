(* Plain lexical scoping, without copies: the machine EnvModel is compared
   with.  An environment is one frame of bindings with a parent; capturing it
   hands out the same frame; a frame that was captured outlives its popping; a
   turn of a do loop gets a frame of its own. *)

From Coq Require Import List Arith Bool.
Import ListNotations.
From Verif Require Import EnvModel.

(* Local variables in order, or a module table by number. *)
Inductive abinds := ALex (l : list (sym * val)) | AMod (t : nat).

Record aframe := mka
  { abind : abinds; aexp : option nat; apar : option nat }.

(* A pointer is gone (None), or names a frame; the flag says whether it
   outlives the form that made it (a captured environment or a module). *)
Record astate := mks
  { frames : list aframe;
    atabs  : list (sym -> option val);
    astk   : list nat;
    ahs    : list (option (bool * nat)) }.

Definition ainit : astate := mks [] [] [] [].

Definition empty_tab : sym -> option val := fun _ => None.

Definition atab (A : astate) (t : nat) : sym -> option val :=
  nth t (atabs A) empty_tab.

(* The first position holding a symbol. *)
Fixpoint pos (s : sym) (l : list (sym * val)) : option nat :=
  match l with
  | [] => None
  | p :: l' => if s =? fst p then Some 0 else option_map S (pos s l')
  end.

Definition put (l : list (sym * val)) (i : nat) (v : val) : list (sym * val) :=
  firstn i l ++ match skipn i l with
                | [] => []
                | (s, _) :: r => (s, v) :: r
                end.

(* Has the frame a place for the symbol, and what is in it? *)
Definition place (A : astate) (b : abinds) (s : sym) : option val :=
  match b with
  | ALex l => match pos s l with
              | Some i => option_map snd (nth_error l i)
              | None => None
              end
  | AMod t => atab A t s
  end.

(* In a module table a VOID only reserves the place. *)
Definition bound (A : astate) (b : abinds) (s : sym) : option val :=
  match place A b s with
  | Some VUnbound => None
  | Some VVoid => match b with ALex _ => Some VVoid | AMod _ => None end
  | o => o
  end.

Fixpoint look (k : nat) (A : astate) (a : nat) (s : sym) : val :=
  match k with
  | 0 => VVoid
  | S k' =>
      match nth_error (frames A) a with
      | None => VVoid
      | Some f =>
          match bound A (abind f) s with
          | Some v => v
          | None => match apar f with
                    | None => VVoid
                    | Some p => look k' A p s
                    end
          end
      end
  end.

(* The innermost frame with a place for the symbol. *)
Fixpoint home (k : nat) (A : astate) (a : nat) (s : sym) : option nat :=
  match k with
  | 0 => None
  | S k' =>
      match nth_error (frames A) a with
      | None => None
      | Some f =>
          match place A (abind f) s with
          | Some _ => Some a
          | None => match apar f with
                    | None => None
                    | Some p => home k' A p s
                    end
          end
      end
  end.

Fixpoint aref (A : astate) (a up across : nat) : option val :=
  match nth_error (frames A) a with
  | None => None
  | Some f =>
      match up with
      | 0 => match abind f with
             | ALex l => option_map snd (nth_error l across)
             | AMod _ => None
             end
      | S up' => match apar f with
                 | None => None
                 | Some p => aref A p up' across
                 end
      end
  end.

Definition with_frame (A : astate) (a : nat) (f : aframe) : astate :=
  mks (upd (frames A) a f) (atabs A) (astk A) (ahs A).

Definition with_tab (A : astate) (t : nat) (g : sym -> option val) : astate :=
  mks (frames A) (upd (atabs A) t g) (astk A) (ahs A).

(* Write into the frame itself: a local frame must have the variable, a module
   takes anything and passes the value on to its exports. *)
Definition export_too (A : astate) (f : aframe) (s : sym) (v : val) : astate :=
  match aexp f with
  | None => A
  | Some t =>
      with_tab A t
        (fun s' => if s' =? s
                   then match atab A t s with Some _ => Some v | None => None end
                   else atab A t s')
  end.

Definition write (A : astate) (a : nat) (s : sym) (v : val) : astate * obs :=
  match nth_error (frames A) a with
  | None => (A, Error)
  | Some f =>
      match abind f with
      | ALex l =>
          match pos s l with
          | Some i => (export_too
                         (with_frame A a (mka (ALex (put l i v)) (aexp f) (apar f)))
                         f s v, Done)
          | None => (A, Error)
          end
      | AMod t =>
          (export_too
             (with_tab A t (fun s' => if s' =? s then Some v else atab A t s'))
             f s v, Done)
      end
  end.

(* Environments made by importing a module may not be assigned. *)
Definition imported (f : aframe) : bool :=
  match abind f, aexp f with
  | AMod t, Some t' => t =? t'
  | _, _ => false
  end.

Definition aset (A : astate) (a : nat) (s : sym) (v : val) : astate * obs :=
  match home (length (frames A)) A a s with
  | None => write A a s v
  | Some b =>
      match nth_error (frames A) b with
      | Some f => if imported f then (A, Error) else write A b s v
      | None => (A, Error)
      end
  end.

Definition aexports (A : astate) (a : nat) : astate * nat :=
  match nth_error (frames A) a with
  | None => (A, 0)
  | Some f =>
      match aexp f with
      | Some t => (A, t)
      | None =>
          let t := length (atabs A) in
          (mks (upd (frames A) a (mka (abind f) (Some t) (apar f)))
             (atabs A ++ [empty_tab]) (astk A) (ahs A), t)
      end
  end.

Fixpoint auses (k : nat) (A : astate) (a t : nat) : bool :=
  match k with
  | 0 => false
  | S k' =>
      match nth_error (frames A) a with
      | None => false
      | Some f =>
          orb (match abind f with AMod t' => t' =? t | ALex _ => false end)
              (match apar f with Some p => auses k' A p t | None => false end)
      end
  end.

(* Put an import between a frame and its parent, unless it is there. *)
Definition ause (A : astate) (a m : nat) : astate :=
  let '(A1, t) := aexports A m in
  if auses (length (frames A1)) A1 a t then A1
  else match nth_error (frames A1) a with
       | None => A1
       | Some f =>
           mks (upd (frames A1) a
                  (mka (abind f) (aexp f) (Some (length (frames A1))))
                ++ [mka (AMod t) (Some t) (apar f)])
             (atabs A1) (astk A1) (ahs A1)
       end.

Definition ahandle (A : astate) (h : nat) : option (bool * nat) :=
  nth h (ahs A) None.

Definition ahandle_opt (A : astate) (h : option nat) : option (option nat) :=
  match h with
  | None => Some None
  | Some h => match ahandle A h with
              | Some (_, a) => Some (Some a)
              | None => None
              end
  end.

Definition amodule (A : astate) (a : nat) : bool :=
  match nth_error (frames A) a with
  | Some f => match abind f with AMod _ => negb (imported f) | ALex _ => false end
  | None => false
  end.

Definition agive (A : astate) (d : bool) (a : nat) : astate * obs :=
  (mks (frames A) (atabs A) (astk A) (ahs A ++ [Some (d, a)]),
   Env (length (ahs A))).

Fixpoint do_vals (l : list (sym * val)) (us : list (option nat))
  : list (sym * val) :=
  match l, us with
  | (s, v) :: l', u :: us' =>
      (s, match u with Some n => VObj n | None => v end) :: do_vals l' us'
  | _, _ => []
  end.

Definition astep (A : astate) (o : op) : astate * obs :=
  match o with
  | OPush h vars vals =>
      match ahandle_opt A h with
      | None => (A, Bad)
      | Some p =>
          (mks (frames A ++ [mka (ALex (combine vars vals)) None p]) (atabs A)
             (length (ahs A) :: astk A)
             (ahs A ++ [Some (false, length (frames A))]),
           Env (length (ahs A)))
      end
  | OPop =>
      match astk A with
      | [] => (A, Bad)
      | h :: r => (mks (frames A) (atabs A) r (upd (ahs A) h None), Done)
      end
  | OCopy h =>
      match ahandle A h with
      | None => (A, Bad)
      | Some (_, a) => agive A true a
      end
  | OModule h =>
      match ahandle_opt A h with
      | None => (A, Bad)
      | Some p =>
          agive (mks (frames A ++ [mka (AMod (length (atabs A))) None p])
                   (atabs A ++ [empty_tab]) (astk A) (ahs A))
            true (length (frames A))
      end
  | OImport h m =>
      match ahandle_opt A h, ahandle A m with
      | Some p, Some (_, y) =>
          if amodule A y
          then let '(A1, t) := aexports A y in
               agive (mks (frames A1 ++ [mka (AMod t) (Some t) p]) (atabs A1)
                        (astk A1) (ahs A1)) true (length (frames A1))
          else (A, Bad)
      | _, _ => (A, Bad)
      end
  | OExport m s =>
      match ahandle A m with
      | Some (_, y) =>
          if amodule A y
          then let '(A1, t) := aexports A y in
               match nth_error (frames A1) y with
               | None => (A1, Done)
               | Some f =>
                   (with_tab A1 t
                      (fun s' => if s' =? s
                                 then match place A1 (abind f) s with
                                      | Some v => Some v
                                      | None => Some VVoid
                                      end
                                 else atab A1 t s'), Done)
               end
          else (A, Bad)
      | None => (A, Bad)
      end
  | OUse h m =>
      match ahandle A h, ahandle A m with
      | Some (d, a), Some (_, y) =>
          if andb (amodule A a) (amodule A y) then (ause A a y, Done) else (A, Bad)
      | _, _ => (A, Bad)
      end
  | OUseStatic h m =>
      match ahandle A h, ahandle A m with
      | Some (d, a), Some (_, y) =>
          if andb (negb d) (amodule A y) then (ause A a y, Done) else (A, Bad)
      | _, _ => (A, Bad)
      end
  | OSet h s n =>
      match ahandle A h with
      | Some (_, a) => aset A a s (VObj n)
      | None => (A, Bad)
      end
  | ODefine h s n =>
      match ahandle A h with
      | Some (_, a) => write A a s (VObj n)
      | None => (A, Bad)
      end
  | OLocal h s n =>
      match ahandle A h with
      | Some (_, a) =>
          match nth_error (frames A) a with
          | Some f => match abind f with
                      | ALex _ => write A a s (VObj n)
                      | AMod _ => (A, Error)
                      end
          | None => (A, Error)
          end
      | None => (A, Bad)
      end
  | OInit h i n =>
      match ahandle A h with
      | Some (true, _) => (A, Bad)
      | Some (false, a) =>
          match nth_error (frames A) a with
          | Some f =>
              match abind f with
              | ALex l =>
                  if i <? length l
                  then (with_frame A a
                          (mka (ALex (put l i (VObj n))) (aexp f) (apar f)), Done)
                  else (A, Error)
              | AMod _ => (A, Error)
              end
          | None => (A, Error)
          end
      | None => (A, Bad)
      end
  | ODo h us =>
      match astk A with
      | h' :: _ =>
          if h' =? h
          then match ahandle A h with
               | Some (d, a) =>
                   match nth_error (frames A) a with
                   | Some f =>
                       match abind f with
                       | ALex l =>
                           if length us =? length l
                           then (mks (frames A ++
                                       [mka (ALex (do_vals l us)) (aexp f) (apar f)])
                                   (atabs A) (astk A)
                                   (upd (ahs A) h
                                      (Some (d, length (frames A)))), Done)
                           else (A, Error)
                       | AMod _ => (A, Error)
                       end
                   | None => (A, Error)
                   end
               | None => (A, Bad)
               end
          else (A, Bad)
      | [] => (A, Bad)
      end
  | OLook h s =>
      match ahandle A h with
      | Some (_, a) =>
          (A, match look (length (frames A)) A a s with
              | VVoid => Error
              | v => Value v
              end)
      | None => (A, Bad)
      end
  | OLexref h up across =>
      match ahandle A h with
      | Some (_, a) => (A, match aref A a up across with
                           | Some v => Value v
                           | None => Error
                           end)
      | None => (A, Bad)
      end
  end.

Fixpoint arun (k : nat) (A : astate) (seen : list obs)
  (prog : list obs -> op) : list obs :=
  match k with
  | 0 => seen
  | S k' => let '(A1, o) := astep A (prog seen) in
            arun k' A1 (seen ++ [o]) prog
  end.

(* The operations for which the two machines agree.  With [d] false the
   program uses no let* or letrec; with [d] true it may, but no binding form
   repeats a variable. *)
Definition tame (d : bool) (o : op) : Prop :=
  match o with
  | OPush _ vars _ => d = true -> NoDup vars
  | OInit _ _ _ => d = true
  | OLocal _ _ _ | OUseStatic _ _ => False
  | ODo _ us => ~ In None us
  | _ => True
  end.
