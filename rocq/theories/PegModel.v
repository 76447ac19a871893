(** Model of lib/peg.cora.  Parsers are syntax trees, so that their meaning can
    be stated; [parse] is what the function a tree stands for does.  Not
    modelled: tokens other than numbers, and predicates and functions with
    effects. *)
From Coq Require Import List ZArith String Bool.
From Verif Require Import PegSpec.
Import ListNotations.
Local Open Scope list_scope.

(** ['ok v toks], ['fail toks], and an error raised by match *)
Inductive res := Ok (v : val) (toks : list Z) | Fail (toks : list Z) | Error.

(** lib/peg.cora:57-61: [None] is the error of a func without matching rule *)
Fixpoint sub_list (l toks : list Z) : option (option (list Z)) :=
  match l, toks with
  | [], rem => Some (Some rem)
  | h1 :: t1, h2 :: t2 => if (h1 =? h2)%Z then sub_list t1 t2 else Some None
  | _ :: _, [] => None
  end.

Section Parse.
  Variable defs : nat -> option peg.

  (** :138-141; [p] is the parser *)
  Fixpoint recur_h (n : nat) (p : list Z -> option res) (toks : list Z) (acc : list val) (k : list val -> list Z -> res) : option res :=
    match n with
    | O => None
    | S n' =>
        match p toks with
        | Some (Ok v toks1) => recur_h n' p toks1 (v :: acc) k
        | Some (Fail toks1) => Some (k acc toks1)
        | Some Error => Some Error
        | None => None
        end
    end.

  Fixpoint parse (n : nat) (p : peg) (toks : list Z) : option res :=
    match n with
    | O => None
    | S n' =>
        match p with
        (* :50-55 *)
        | PChar c => Some (match toks with h :: t => if (h =? c)%Z then Ok (VTok c) t else Fail toks | [] => Fail toks end)
        (* :64-69 *)
        | PStr l =>
            Some (match sub_list l toks with
                  | Some (Some rem) => Ok (VStr l) rem
                  | Some None => Fail toks
                  | None => Error
                  end)
        (* :72-77 *)
        | PSat f => Some (match toks with h :: t => if f h then Ok (VTok h) t else Fail toks | [] => Fail toks end)
        (* :80-87 *)
        | PRange a b =>
            Some (match toks with
                  | h :: t => if (negb (h <? a) && negb (h >? b))%Z then Ok (VTok h) t else Fail toks
                  | [] => Fail toks
                  end)
        (* :90-94 *)
        | PEof => Some (match toks with [] => Ok VNil [] | _ => Fail toks end)
        (* :110-116 *)
        | PSeq p1 p2 =>
            match parse n' p1 toks with
            | Some (Fail t) => Some (Fail t)
            | Some (Ok v1 toks1) =>
                match parse n' p2 toks1 with
                | Some (Fail t) => Some (Fail t)
                | Some (Ok v2 toks2) => Some (Ok (VCons v1 v2) toks2)
                | r => r
                end
            | r => r
            end
        (* :126-130: the second parser starts where the first failed *)
        | POr p1 p2 =>
            match parse n' p1 toks with
            | Some (Fail t) => parse n' p2 t
            | r => r
            end
        (* :132-136: v is a global that nothing sets *)
        | PNot p1 =>
            match parse n' p1 toks with
            | Some (Ok _ toks1) => Some (Fail toks1)
            | Some (Fail toks1) => Some (Ok VUndef toks1)
            | r => r
            end
        (* :144-150 *)
        | PPlus p1 =>
            recur_h n' (parse n' p1) toks []
              (fun acc toks1 => if (0 <? List.length acc)%nat then Ok (vlist (rev acc)) toks1 else Fail toks1)
        (* :153-157 *)
        | PStar p1 => recur_h n' (parse n' p1) toks [] (fun acc toks1 => Ok (vlist (rev acc)) toks1)
        (* :159-163 *)
        | PMaybe p1 =>
            match parse n' p1 toks with
            | Some (Fail toks1) => Some (Ok VNil toks1)
            | r => r
            end
        (* :168-172 *)
        | PMap p1 f =>
            match parse n' p1 toks with
            | Some (Ok v toks1) => Some (Ok (f v) toks1)
            | r => r
            end
        (* :174-178 *)
        | PBind p1 f =>
            match parse n' p1 toks with
            | Some (Ok v toks1) => parse n' (f v) toks1
            | r => r
            end
        | PRef i => match defs i with Some p1 => parse n' p1 toks | None => None end
        end
    end.
End Parse.
