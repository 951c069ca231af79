#!/usr/bin/env python3
# Generates rocq/theories/Keywords.v from /repo/src/keywords.rs
import re
src=open('/repo/src/keywords.rs').read().split('\n')
def block(name):
    i=next(k for k,l in enumerate(src) if l.strip()==name+'![')
    j=next(k for k in range(i,len(src)) if src[k].strip()=='];')
    words=[w for l in src[i+1:j] for w in l.split()]
    assert all(re.match(r'^[A-Za-z_0-9]+$',w) for w in words)
    return words,i+1,j+1
out=['(** GENERATED by tools/gen_keywords.py from /repo/src/keywords.rs; the three tables',
     '    of the [keywords!], [reserved!] and [expr_ident!] macros, in source order. *)',
     'From Verif Require Import Base.','Open Scope string_scope.','']
for name in ['keywords','reserved','expr_ident']:
    w,a,b=block(name)
    out.append('(** src/keywords.rs:%d-%d (%d words). *)'%(a,b,len(w)))
    out.append('Definition %s_table : list string := ['%name)
    line='  '
    for k,x in enumerate(w):
        s='"%s"%s'%(x,';' if k+1<len(w) else '')
        if len(line)+len(s)>90: out.append(line); line='  '
        line+=s+' '
    out.append(line+'].'); out.append('')
open('/verif/rocq/theories/Keywords.v','w').write('\n'.join(out)+'''
Close Scope string_scope.

(** [str::to_ascii_uppercase] of core, on one character. *)
Definition to_upper (c : N) : N :=
  if ((97 <=? c) && (c <=? 122))%N then (c - 32)%N else c.
Definition upper (t : text) : text := map to_upper t.

(** src/keywords.rs:27-34 [impl From<&str> for Keyword]: the [match] on the words. *)
Definition kw_of_text (t : text) : kw :=
  match find (fun k => text_eqb (txt k) t) keywords_table with
  | Some k => KW k
  | None => NOT_A_KEYWORD
  end.

(** src/keywords.rs:48-61 [Keyword::reserved]. *)
Definition kw_reserved (k : kw) : bool :=
  match k with KW s => existsb (String.eqb s) reserved_table | _ => false end.

(** src/keywords.rs:63-76 [Keyword::expr_ident]. *)
Definition kw_expr_ident (k : kw) : bool :=
  match k with
  | KW s => existsb (String.eqb s) expr_ident_table || negb (kw_reserved k)
  | _ => negb (kw_reserved k)
  end.
''')
