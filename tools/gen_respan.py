import re
src=open('/verif/rocq/theories/Ast.v').read()
par=open('/verif/rocq/theories/Parser.v').read()
def strip(s):
    out='';d=0;i=0
    while i<len(s):
        if s[i:i+2]=='(*': d+=1;i+=2;continue
        if s[i:i+2]=='*)': d-=1;i+=2;continue
        if d==0: out+=s[i]
        i+=1
    return out
t=strip(src)
pos=t.index('Section Types.')
sect=t[pos:t.index('End Types.')]
types=[]
def parse_ctor(c):
    c=c.strip()
    m=re.match(r'(\w+)\s*(.*)$',c,re.S)
    name,rest=m.group(1),m.group(2)
    rest=rest.split(' : ')[0] if not rest.strip().startswith('(') else rest
    n=0
    # top-level paren groups
    d=0;cur=''
    for ch in rest:
        if ch=='(':
            d+=1
            if d==1: cur='';continue
        if ch==')':
            d-=1
            if d==0:
                n+=len(cur.split(':')[0].split());continue
        cur+=ch
    return name,n
defs={}
order=[]
for m in re.finditer(r'(Inductive|Record)\s+(\w+)\s*(?::\s*Type\s*)?:=\s*(.*?)\.(?=\s)',t,re.S):
    kind,name,body=m.groups()
    if kind=='Record':
        mm=re.match(r'(\w+)\s*\{(.*)\}\s*$',body,re.S)
        con=mm.group(1); fields=mm.group(2)
        n=len([x for x in fields.split(';') if x.strip()])
        for x in fields.split(';'):
            pass
        defs[name]=[(con,n)]
    else:
        parts=re.split(r'\bwith\s+stmt\b',body)
        if name=='expr':
            defs['expr']=[parse_ctor(c) for c in parts[0].split('|') if c.strip()]
            b2=parts[1].split(':=',1)[1]
            defs['stmt']=[parse_ctor(c) for c in b2.split('|') if c.strip()]
        else:
            defs[name]=[parse_ctor(c) for c in body.split('|') if c.strip()]
print({k:v for k,v in defs.items()})
def arm(c,n,rec={}):
    vs=['x%d'%i for i in range(1,n+1)]
    return '%s => %s'%(' '.join([c]+vs),' '.join([c]+['(respan f %s)'%v for v in vs]))
def inst(name,ty):
    cs=defs[name]
    return '#[export] Instance Rs_%s : Respan %s := fun f x => match x with %s end.'%(name,ty,' | '.join(arm(*c) for c in cs))
leaf=['tagged','qname','argref','invalid','idpart','idparts','order_flag','index_hint','lock_wait','locking','timestamp','type_','table_option','create_option','function_characteristic','create_type_enum','index_option','foreign_key_on','index_col','drop_table','drop_view','drop_q','drop_i','drop_index','truncate_table','table_to_table','rename_table','copy_','stdin_data','union_type','on_conflict_target']
sec=[]
for m in re.finditer(r'Instance Atoms_\w+ : Atoms (\w+)',sect): sec.append(m.group(1))
print(sec)
defs['ident']=[('mkIdent',2)];defs['sstring']=[('mkSString',2)]
out=r'''(** C56: the AST with other positions.

    [respan f x] is [x] with every span [s] in it replaced by [f s], and nothing else changed.  (Written by
    tools/gen_respan.py from Ast.v: one equation per constructor.) *)
From Verif Require Export Ast.
Local Open Scope list_scope.

Class Respan (A : Type) := respan : (span -> span) -> A -> A.
#[export] Instance Rs_unit : Respan unit := fun _ x => x.
#[export] Instance Rs_bool : Respan bool := fun _ x => x.
#[export] Instance Rs_N : Respan N := fun _ x => x.
#[export] Instance Rs_string : Respan string := fun _ x => x.
#[export] Instance Rs_text : Respan text | 0 := fun _ x => x.
#[export] Instance Rs_listN : Respan (list N) | 0 := fun _ x => x.
#[export] Instance Rs_tok : Respan tok := fun _ x => x.
#[export] Instance Rs_unit_ : Respan time_unit := fun _ x => x.
#[export] Instance Rs_func : Respan func := fun _ x => x.
#[export] Instance Rs_variable : Respan variable := fun _ x => x.
#[export] Instance Rs_binop : Respan binop := fun _ x => x.
#[export] Instance Rs_is : Respan is_ := fun _ x => x.
#[export] Instance Rs_unop : Respan unop := fun _ x => x.
#[export] Instance Rs_ctl : Respan ctl := fun _ x => x.
#[export] Instance Rs_span : Respan span | 0 := fun f s => f s.
#[export] Instance Rs_option A (_ : Respan A) : Respan (option A) := fun f o => match o with Some a => Some (respan f a) | None => None end.
#[export] Instance Rs_prod A B (_ : Respan A) (_ : Respan B) : Respan (A * B) | 5 := fun f x => match x with (a, b) => (respan f a, respan f b) end.
#[export] Instance Rs_sum A B (_ : Respan A) (_ : Respan B) : Respan (A + B) := fun f x => match x with inl a => inl (respan f a) | inr b => inr (respan f b) end.
#[export] Instance Rs_list A (_ : Respan A) : Respan (list A) | 5 := fun f => List.map (respan f).
'''
out+=inst('ident','ident')+'\n'+inst('sstring','sstring')+'\n'
for l in leaf: out+=inst(l,l)+'\n'
out+='\nSection Types.\nVariables E St : Type.\nContext {RE : Respan E} {RSt : Respan St}.\n'
for s in sec:
    ty=re.search(r'',s)
    # params
    if s=='tref':
        out+='''Fixpoint respan_tref (f : span -> span) (x : tref E St) : tref E St :=
  let RT : Respan (tref E St) := respan_tref in
  match x with %s end.
#[export] Instance Rs_tref : Respan (tref E St) := respan_tref.
'''%' | '.join(arm(*c) for c in defs['tref'])
    else: out+=inst(s,'(@TY %s)'%s)+'\n'
out+='End Types.\n\n'
def arms(n): return '\n  | '.join(arm(*c) for c in defs[n])
out+='''Fixpoint respan_expr (f : span -> span) (x : expr) {struct x} : expr :=
  let RE : Respan expr := respan_expr in
  let RSt : Respan stmt := respan_stmt in
  match x with
  | %s
  end
with respan_stmt (f : span -> span) (x : stmt) {struct x} : stmt :=
  let RE : Respan expr := respan_expr in
  let RSt : Respan stmt := respan_stmt in
  match x with
  | %s
  end.
#[export] Instance Rs_expr : Respan expr := respan_expr.
#[export] Instance Rs_stmt : Respan stmt := respan_stmt.
'''%(arms('expr'),arms('stmt'))
# params by SpanFacts
sf=open('/verif/rocq/theories/SpanFacts.v').read()
pm=dict(re.findall(r'SpOk \((\w+) ([ESt ]+)\)',sf))
out=re.sub(r'\(@TY (\w+)\)',lambda m:'(%s %s)'%(m.group(1),pm[m.group(1)]) if m.group(1) in pm else '(@TY %s)'%m.group(1),out)
open('/verif/rocq/theories/Respan.v','w').write(out)
