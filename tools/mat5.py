import struct, zlib, sys
T={1:'b',2:'B',3:'h',4:'H',5:'i',6:'I',7:'f',9:'d',12:'q',13:'Q'}
SZ={1:1,2:1,3:2,4:2,5:4,6:4,7:4,9:8,12:8,13:8,14:0,15:0,16:1,17:2,18:4}
def elem(b,p):
    t,n=struct.unpack_from('<II',b,p)
    if t>>16:
        n=t>>16; t&=0xffff
        return t,b[p+4:p+4+n],p+8
    e=p+8+n
    if t!=15: e+=(-n)%8
    return t,b[p+8:p+8+n],e
def num(t,d): 
    return struct.unpack('<%d%s'%(len(d)//SZ[t],T[t]),d)
def matrix(b):
    p=0
    t,f,p=elem(b,p); flags=struct.unpack('<II',f); cls=flags[0]&0xff
    t,d,p=elem(b,p); dims=num(t,d)
    t,nm,p=elem(b,p); nm=nm.decode()
    r=dict(name=nm,cls=cls,dims=dims,logical=bool(flags[0]&0x200))
    if cls==5:
        t,d,p=elem(b,p); r['ir']=num(t,d)
        t,d,p=elem(b,p); r['jc']=num(t,d)
        t,d,p=elem(b,p); r['pr']=num(t,d)
    elif 6<=cls<=15:
        t,d,p=elem(b,p); r['t']=t; r['data']=num(t,d)
    return r
def load(path):
    b=open(path,'rb').read()
    p=128; out={}
    while p<len(b):
        t,d,p2=elem(b,p)
        if t==15: t,d,_=elem(zlib.decompress(d),0)
        if t==14:
            m=matrix(d); out[m['name']]=m
        p=p2
    return out
if __name__=='__main__':
    for f in sys.argv[1:]:
        for k,m in load(f).items(): print(f,k,m['cls'],m['dims'],m['logical'],m.get('t'),len(m.get('pr',m.get('data',()))), (m.get('pr') or m.get('data') or ())[:5])
