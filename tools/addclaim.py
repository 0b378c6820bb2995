"""addclaim.py ID STATUS THEOREM,THEOREM NOTE: record a claim and regenerate MANIFEST.json"""
import json,sys,subprocess,os
d=os.path.dirname(os.path.abspath(__file__))
f=os.path.join(d,'claims.json')
C=json.load(open(f))
i,st,ths,note=sys.argv[1:5]
C[i]={"status":st,"theorems":[t for t in ths.split(',') if t],"note":note}
C=dict(sorted(C.items()))
json.dump(C,open(f,'w'),indent=1)
subprocess.check_call([sys.executable,os.path.join(d,'manifest.py')])
