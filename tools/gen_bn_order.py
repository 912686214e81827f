# generates the step list of rocq/theories/Bn254Order.v: a double-and-add chain from (1,2) to (r-1)*(1,2) with slopes and quotients
q=21888242871839275222246405745257275088696311157297823662689037894645226208583
r=21888242871839275222246405745257275088548364400416034343698204186575808495617
G=(1,2)
def inv(a): return pow(a,q-2,q)
def step(P,Q):
    (x,y),(x2,y2)=P,Q
    l=(3*x*x*inv(2*y))%q if P==Q else ((y2-y)*inv(x2-x))%q
    x3=(l*l-x-x2)%q; y3=(l*(x-x3)-y)%q
    if P==Q: k1=(2*y*l-3*x*x)//q; assert 2*y*l-3*x*x==k1*q
    else: k1=(l*(x2-x)-(y2-y))//q; assert l*(x2-x)-(y2-y)==k1*q
    k2=(l*l-x-x2-x3)//q; k3=(l*(x-x3)-y-y3)//q
    return (x3,y3),(l,x3,y3,k1,k2,k3)
P=G; out=[]
for c in bin(r-1)[3:]:
    P,h=step(P,P); out.append((False,h))
    if c=='1':
        P,h=step(P,G); out.append((True,h))
assert P==(1,q-2)
print(" ;\n  ".join("mkStep %s %d %d %d (%d) (%d) (%d)"%(("true" if a else "false",)+h) for a,h in out))
